(** C95 continued: the momentum operator *)
Require Import Reals List Bool Arith Lia Lra FunctionalExtensionality.
From Verif Require Import Edge_Model Edge_Proofs Elem_Model Elem_Spec Elem_Proofs Bnd_Model Bnd_Spec Leg_Model Leg_Props.
Open Scope R_scope.

Lemma row_lt a i n d : (a < n)%nat -> (i < d)%nat -> (a*d+i < n*d)%nat.
Proof. intros. nia. Qed.
Lemma flat_ix r n d c i : (r*n*d + c + i = r*(n*d) + (c + i))%nat.
Proof. nia. Qed.
Lemma fused4 n d (f : nat -> R) (g h k : nat -> nat -> R) :
  loop n (fun ic (st : R * (R * ((nat -> R) * (nat -> R)))) => let '(a, (b, (c, e))) := st in
     (a + f ic, (loop d (fun j x => x + g ic j) b, ((fun j => c j + h ic j), (fun j => e j + k ic j))))) (0, (0, ((fun _ => 0), (fun _ => 0))))
  = (sumn n f, (sumn n (fun ic => sumn d (g ic)), ((fun j => sumn n (fun ic => h ic j)), (fun j => sumn n (fun ic => k ic j))))).
Proof.
  induction n; [reflexivity|]. rewrite loop_S, IHn, loop_sum, !sumn_S.
  replace (fun j => sumn n (fun ic => h ic j) + h n j) with (fun j => sumn (S n) (fun ic => h ic j))
    by (apply functional_extensionality; intros j; rewrite sumn_S; reflexivity).
  replace (fun j => sumn n (fun ic => k ic j) + k n j) with (fun j => sumn (S n) (fun ic => k ic j))
    by (apply functional_extensionality; intros j; rewrite sumn_S; reflexivity).
  reflexivity.
Qed.

Section interior.
Variable m : fel.
Hypothesis Hm : lr_ok m.
Let N := (le_n m * le_d m)%nat.

Ltac hold := repeat first [ assumption | apply holds_incB | (eapply holds_incL; [ | | |apply flat_ix])
   | (apply row_lt; assumption) | rewrite <- !Nat.add_assoc; apply row_lt; assumption].

Lemma mom_node_leg muIp u fA ip ic f s : (ip < le_ip m)%nat -> (ic < le_n m)%nat -> holds N f s ->
  holds N (leg_mom_node m muIp u fA ip ic f) (viscous_node (elem_of m) muIp u fA ip ic s).
Proof.
  intros Hip Hic H0. destruct (Hm ip Hip) as [HL HR]. unfold leg_mom_node, viscous_node. cbn [ndim elem_of lrL lrR].
  apply holds_loop; [|exact H0]. intros i f' s' Hi H. cbv zeta.
  match goal with |- holds N (let '(_, _) := loop _ ?bf (?f1, ?t) in _) (let '(_, _) := loop _ ?bs (?s1, _) in _) =>
    destruct (holds_loop_acc N (le_d m) bf bs f1 s1 t) as [E1 E2];
    [| |destruct (loop (le_d m) bf (f1, t)) as [f2 t1], (loop (le_d m) bs (s1, t)) as [s2 t2]] end.
  - intros j f1 s1 t Hj Hf. cbn [fst snd]. split; [|reflexivity]. hold.
  - hold.
  - cbn [fst snd] in *. subst t2. hold.
Qed.

Lemma momentum_leg o G incl mdot mu u f s : holds N f s ->
  holds N (leg_momentum m o G incl mdot mu u f)
    (momentum_upw (elem_of m) o (fun a i j => G (a*le_d m*le_d m + i*le_d m + j)%nat) incl mdot mu u s).
Proof.
  intros H0. unfold leg_momentum, momentum_upw. cbn [nscs npe ndim elem_of lrL lrR]. apply holds_loop; [|exact H0].
  intros ip f' s' Hip H. destruct (Hm ip Hip) as [HL HR]. cbv zeta.
  rewrite (fused4 (le_n m) (le_d m) (fun ic => le_N m (ip*le_n m+ic)%nat * mu ic)
     (fun ic j => u (ic*le_d m+j)%nat * le_dn m (le_d m*le_n m*ip + ic*le_d m + j)%nat)
     (fun ic i => le_Na m (ip*le_n m+ic)%nat * u_x o (ic*le_d m+i)%nat)
     (fun ic i => le_Na m (ip*le_n m+ic)%nat * u (ic*le_d m+i)%nat)).
  cbv iota beta.
  rewrite (loop_sum0 (le_d m) (fun j => (1/2)*(u_v o (le_lr m (2*ip)*le_d m+j)%nat + u_v o (le_lr m (2*ip+1)*le_d m+j)%nat) * (u_x o (le_lr m (2*ip+1)*le_d m+j)%nat - u_x o (le_lr m (2*ip)*le_d m+j)%nat))).
  change (u_pec o (Rabs (sumn (le_d m) _) / _)) with (pec_of (elem_of m) o mu ip).
  set (pf := pec_of (elem_of m) o mu ip).
  change (sumn (le_n m) (fun ic => le_N m (ip*le_n m+ic)%nat * mu ic)) with (at_scs (elem_of m) mu ip).
  change (sumn (le_n m) (fun ic => sumn (le_d m) (fun j => u (ic*le_d m+j)%nat * le_dn m (le_d m*le_n m*ip + ic*le_d m + j)%nat)))
    with (divU_of (elem_of m) u ip).
  apply holds_loop.
  - intros ic f1 s1 Hic Hf. apply mom_node_leg; assumption.
  - apply holds_loop; [|exact H]. intros i f1 s1 Hi Hf.
    rewrite !loop_sum0.
    set (Gi := fun n j => G (n*le_d m*le_d m + i*le_d m + j)%nat).
    set (ui := fun ic => u (ic*le_d m+i)%nat).
    change (sumn (le_n m) (fun ic => le_Na m (ip*le_n m+ic)%nat * u (ic*le_d m+i)%nat)) with (at_adv (elem_of m) ui ip).
    replace (face_val (elem_of m) o Gi mu ui (mdot ip) ip)
     with (pf * (if Rlt_dec 0 (mdot ip) then u_alphaUpw o * qL_of (elem_of m) o Gi ui ip + (1 - u_alphaUpw o) * at_adv (elem_of m) ui ip
          else u_alphaUpw o * qR_of (elem_of m) o Gi ui ip + (1 - u_alphaUpw o) * at_adv (elem_of m) ui ip)
        + (1 - pf) * ((1/2) * ((u_alpha o * qL_of (elem_of m) o Gi ui ip + (1 - u_alpha o) * at_adv (elem_of m) ui ip)
           + (u_alpha o * qR_of (elem_of m) o Gi ui ip + (1 - u_alpha o) * at_adv (elem_of m) ui ip)))) by reflexivity.
    unfold qL_of, qR_of. cbv zeta. cbn [ndim npe elem_of lrL lrR]. unfold xIp. cbn [npe ndim Na elem_of]. unfold Gi, ui.
    change (area (elem_of m) ip i) with (le_A m (ip*le_d m+i)%nat).
    hold.
Qed.
End interior.
