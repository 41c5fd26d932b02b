(** C95: the element operators assembled into flat arrays (legacy algorithms) are the consolidated kernels'
    operators, so that every property of C49-C52, C71 and C72 holds for them as well. *)
Require Import Reals List Bool Arith Lia Lra FunctionalExtensionality.
From Verif Require Import Edge_Model Edge_Proofs Elem_Model Elem_Spec Elem_Proofs Elem_Props Elem_Props2 Bnd_Model Bnd_Spec Leg_Model.
Open Scope R_scope.

(** the flat arrays hold the matrix [eL_ s] row by row and the vector [eB s]; [n] = number of rows; nothing
    has been written behind their ends *)
Definition holds (n : nat) (f : fsys) (s : esys) : Prop :=
  ((forall a b, (a < n)%nat -> (b < n)%nat -> fl f (a*n+b)%nat = eL_ s a b) /\ (forall a, fb f a = eB s a))
  /\ (forall k, (n*n <= k)%nat -> fl f k = 0) /\ (forall k, (n <= k)%nat -> fb f k = 0).
(** the arrays read as a matrix and a vector *)
Definition as_matrix (n : nat) (f : fsys) : esys := mkE (fun a b => fl f (a*n+b)%nat) (fb f).

(** the element data held by flat arrays *)
Definition elem_of (m : fel) : me :=
  mkMe (le_n m) (le_ip m) 0 (le_d m) (fun ip => le_lr m (2*ip)%nat) (fun ip => le_lr m (2*ip+1)%nat)
    (fun ip ic => le_N m (ip*le_n m+ic)%nat) (fun ip ic => le_Na m (ip*le_n m+ic)%nat)
    (fun ip ic j => le_dn m (le_d m*le_n m*ip + ic*le_d m + j)%nat)
    (fun ip ic j => le_dnl m (le_d m*le_n m*ip + ic*le_d m + j)%nat)
    (fun ip j => le_A m (ip*le_d m+j)%nat) (fun _ => 0%nat) (fun _ _ => 0) (fun _ => 0).
Definition lr_ok (m : fel) : Prop :=
  forall ip, (ip < le_ip m)%nat -> (le_lr m (2*ip) < le_n m)%nat /\ (le_lr m (2*ip+1) < le_n m)%nat.

Lemma flat_eq n a b i j : (b < n)%nat -> (j < n)%nat ->
  Nat.eqb (a*n+b) (i*n+j) = (Nat.eqb a i && Nat.eqb b j)%bool.
Proof.
  intros Hb Hj. destruct (Nat.eqb_spec a i) as [E|N]; cbn [andb].
  - subst. destruct (Nat.eqb_spec b j) as [->|N]; [apply Nat.eqb_refl|]. apply Nat.eqb_neq. lia.
  - apply Nat.eqb_neq. intros E. apply N. apply (Nat.mul_cancel_r _ _ n); [lia|].
    assert (a = i \/ (a < i)%nat \/ (i < a)%nat) as [?|[L|L]] by lia; [contradiction| |]; nia.
Qed.
Lemma holds_incL n f s i j k v : holds n f s -> (i < n)%nat -> (j < n)%nat -> k = (i*n+j)%nat ->
  holds n (incL k v f) (addL i j v s).
Proof.
  intros [[H1 H2] [H3 H4]] Hi Hj ->. split; [split; [|exact H2]|split; [|exact H4]].
  - intros a b Ha Hb. cbn [fl incL eL_ addL]. rewrite flat_eq by assumption. rewrite H1 by assumption. reflexivity.
  - intros k Hk. cbn [fl incL]. destruct (Nat.eqb_spec k (i*n+j)%nat) as [E|_]; [nia|]. apply H3. exact Hk.
Qed.
Lemma holds_incB n f s i v : (i < n)%nat -> holds n f s -> holds n (incB i v f) (addB i v s).
Proof.
  intros Hi [[H1 H2] [H3 H4]]. split; [split; [exact H1|]|split; [exact H3|]].
  - intros a. cbn [fb incB eB addB]. rewrite H2. reflexivity.
  - intros k Hk. cbn [fb incB]. destruct (Nat.eqb_spec k i) as [E|_]; [lia|]. apply H4. exact Hk.
Qed.
Lemma holds_loop n k bf bs f s :
  (forall i f s, (i < k)%nat -> holds n f s -> holds n (bf i f) (bs i s)) ->
  holds n f s -> holds n (loop k bf f) (loop k bs s).
Proof. intros H H0. induction k; [exact H0|]. rewrite !loop_S. apply H; [lia|]. apply IHk. intros; apply H; [lia|assumption]. Qed.
Lemma holds_loop_acc {T} n k (bf : nat -> fsys * T -> fsys * T) (bs : nat -> esys * T -> esys * T) f s t :
  (forall i f s t, (i < k)%nat -> holds n f s ->
     holds n (fst (bf i (f,t))) (fst (bs i (s,t))) /\ snd (bf i (f,t)) = snd (bs i (s,t))) ->
  holds n f s ->
  holds n (fst (loop k bf (f,t))) (fst (loop k bs (s,t))) /\ snd (loop k bf (f,t)) = snd (loop k bs (s,t)).
Proof.
  intros H H0. induction k; [split; [exact H0|reflexivity]|]. rewrite !loop_S.
  destruct IHk as [I1 I2]; [intros; apply H; [lia|assumption]|].
  destruct (loop k bf (f,t)) as [f' t'], (loop k bs (s,t)) as [s' t'']. cbn [fst snd] in *. subst t''.
  apply H; [lia|assumption].
Qed.

(* accumulating loops *)
Lemma loop_sum0 n f : loop n (fun k a => a + f k) 0 = sumn n f.
Proof. rewrite loop_sum. ring. Qed.
Lemma loop_fun n (g : nat -> nat -> R) : loop n (fun ic (a : nat -> R) => fun j => a j + g ic j) (fun _ => 0) = (fun j => sumn n (fun ic => g ic j)).
Proof.
  induction n; [reflexivity|]. rewrite loop_S, IHn. apply functional_extensionality. intros j. rewrite sumn_S. reflexivity.
Qed.
Lemma fused3 n (f g : nat -> R) (h : nat -> nat -> R) :
  loop n (fun ic (st : R * (R * (nat -> R))) => let '(a, (b, c)) := st in (a + f ic, (b + g ic, fun i => c i + h ic i))) (0, (0, fun _ => 0))
  = (sumn n f, (sumn n g, fun i => sumn n (fun ic => h ic i))).
Proof.
  induction n; [reflexivity|]. rewrite loop_S, IHn. rewrite !sumn_S. repeat f_equal.
  apply functional_extensionality. intros j. rewrite sumn_S. reflexivity.
Qed.
Lemma fused2 n (f g : nat -> R) :
  loop n (fun j (st : R * R) => let '(a, b) := st in (a + f j, b + g j)) (0, 0) = (sumn n f, sumn n g).
Proof. induction n; [reflexivity|]. rewrite loop_S, IHn, !sumn_S. reflexivity. Qed.

Ltac hold := repeat first [ assumption | lia | ring | apply holds_incB | eapply holds_incL ].

Section interior.
Variable m : fel.
Hypothesis Hm : lr_ok m.
Let n := le_n m.
Let d := le_d m.

Lemma diff_leg coef q f s : holds n f s -> holds n (leg_scalar_diff m coef q f) (scalar_diff (elem_of m) coef q s).
Proof.
  intros H0. unfold leg_scalar_diff, scalar_diff. cbn [nscs npe elem_of lrL lrR]. apply holds_loop; [|exact H0].
  intros ip f' s' Hip H. destruct (Hm ip Hip) as [HL HR]. cbv zeta.
  rewrite loop_sum0. change (sumn (le_n m) _) with (at_scs (elem_of m) coef ip).
  match goal with |- holds n (let '(_, _) := loop _ ?bf (_, _) in _) (let '(_, _) := loop _ ?bs (_, _) in _) =>
    destruct (holds_loop_acc n (le_n m) bf bs f' s' 0) as [E1 E2]; [|exact H|];
    [|destruct (loop (le_n m) bf (f', 0)) as [f1 t1], (loop (le_n m) bs (s', 0)) as [s1 t2]] end.
  - intros ic f1 s1 t Hic Hf. cbn [fst snd]. rewrite loop_sum0.
    change (sumn (le_d m) _) with (lhsfacDiff (elem_of m) (at_scs (elem_of m) coef ip) ip ic).
    split; [|reflexivity]. hold.
  - cbn [fst snd] in *. subst t2. hold.
Qed.

Lemma scalar_leg o G mdot coef q f s : holds n f s ->
  holds n (leg_scalar m o G mdot coef q f) (scalar_upw (elem_of m) o (fun a j => G (le_d m*a+j)%nat) mdot coef q s).
Proof.
  intros H0. unfold leg_scalar, scalar_upw. cbn [nscs npe elem_of lrL lrR]. apply holds_loop; [|exact H0].
  intros ip f' s' Hip H. destruct (Hm ip Hip) as [HL HR]. cbv zeta.
  rewrite (fused3 (le_n m) (fun ic => le_N m (ip*le_n m+ic)%nat * coef ic) (fun ic => le_Na m (ip*le_n m+ic)%nat * q ic)
     (fun ic i => le_Na m (ip*le_n m+ic)%nat * u_x o (ic*le_d m+i)%nat)).
  cbv iota beta.
  rewrite (fused2 (le_d m)
     (fun j => (sumn (le_n m) (fun ic => le_Na m (ip*le_n m+ic)%nat * u_x o (ic*le_d m+j)%nat) - u_x o (le_lr m (2*ip)*le_d m+j)%nat) * G (le_d m*le_lr m (2*ip)+j)%nat)
     (fun j => (u_x o (le_lr m (2*ip+1)*le_d m+j)%nat - sumn (le_n m) (fun ic => le_Na m (ip*le_n m+ic)%nat * u_x o (ic*le_d m+j)%nat)) * G (le_d m*le_lr m (2*ip+1)+j)%nat)).
  cbv iota beta.
  rewrite (loop_sum0 (le_d m) (fun j => (1/2)*(u_v o (le_lr m (2*ip)*le_d m+j)%nat + u_v o (le_lr m (2*ip+1)*le_d m+j)%nat) * (u_x o (le_lr m (2*ip+1)*le_d m+j)%nat - u_x o (le_lr m (2*ip)*le_d m+j)%nat))).
  change (u_pec o (Rabs (sumn (le_d m) _) / _)) with (pec_of (elem_of m) o coef ip).
  set (pf := pec_of (elem_of m) o coef ip).
  replace (face_val (elem_of m) o (fun a j => G (le_d m * a + j)%nat) coef q (mdot ip) ip)
    with (pf * (if Rlt_dec 0 (mdot ip) then u_alphaUpw o * qL_of (elem_of m) o (fun a j => G (le_d m * a + j)%nat) q ip + (1 - u_alphaUpw o) * at_adv (elem_of m) q ip
          else u_alphaUpw o * qR_of (elem_of m) o (fun a j => G (le_d m * a + j)%nat) q ip + (1 - u_alphaUpw o) * at_adv (elem_of m) q ip)
        + (1 - pf) * ((1/2) * ((u_alpha o * qL_of (elem_of m) o (fun a j => G (le_d m * a + j)%nat) q ip + (1 - u_alpha o) * at_adv (elem_of m) q ip)
           + (u_alpha o * qR_of (elem_of m) o (fun a j => G (le_d m * a + j)%nat) q ip + (1 - u_alpha o) * at_adv (elem_of m) q ip)))) by reflexivity.
  unfold qL_of, qR_of. cbv zeta. cbn [ndim npe elem_of lrL lrR]. unfold xIp. cbn [npe ndim Na elem_of].
  set (dqL := sumn (le_d m) _). set (dqR := sumn (le_d m) (fun j => (u_x o (le_lr m (2*ip+1)*le_d m+j)%nat - _) * _)).
  change (sumn (le_n m) (fun ic => le_Na m (ip*le_n m+ic)%nat * q ic)) with (at_adv (elem_of m) q ip).
  change (sumn (le_n m) (fun ic => le_N m (ip*le_n m+ic)%nat * coef ic)) with (at_scs (elem_of m) coef ip).
  replace (if u_lim o then _ else (1, 1)) with
    ((if u_lim o then van_leer (2*2*dqL - (q (le_lr m (2*ip+1)%nat) - q (le_lr m (2*ip)%nat))) (q (le_lr m (2*ip+1)%nat) - q (le_lr m (2*ip)%nat)) (u_small o) else 1),
     (if u_lim o then van_leer (2*2*dqR - (q (le_lr m (2*ip+1)%nat) - q (le_lr m (2*ip)%nat))) (q (le_lr m (2*ip+1)%nat) - q (le_lr m (2*ip)%nat)) (u_small o) else 1))
    by (destruct (u_lim o); reflexivity).
  cbv iota beta.
  match goal with |- holds n (let '(_, _) := loop _ ?bf (?f1, _) in _) (let '(_, _) := loop _ ?bs (?s1, _) in _) =>
    destruct (holds_loop_acc n (le_n m) bf bs f1 s1 0) as [E1 E2];
    [| |destruct (loop (le_n m) bf (f1, 0)) as [f2 t1], (loop (le_n m) bs (s1, 0)) as [s2 t2]] end.
  - intros ic f1 s1 t Hic Hf. cbn [fst snd]. rewrite loop_sum0.
    change (sumn (le_d m) _) with (lhsfacDiff (elem_of m) (at_scs (elem_of m) coef ip) ip ic).
    split; [|reflexivity]. hold.
  - hold.
  - cbn [fst snd] in *. subst t2. hold.
Qed.

Lemma continuity_leg tau c f s : holds n f s ->
  holds n (leg_continuity m tau c f) (continuity_adv (elem_of m) tau c s).
Proof.
  intros H0. unfold leg_continuity, continuity_adv. cbn [nscs npe elem_of lrL lrR]. apply holds_loop; [|exact H0].
  intros ip f' s' Hip H. destruct (Hm ip Hip) as [HL HR]. cbv zeta.
  match goal with |- holds n (let '(_, _) := loop _ ?bf (?f1, ?t) in _) (let '(_, _) := loop _ ?bs (?s1, _) in _) =>
    destruct (holds_loop_acc n (le_n m) bf bs f1 s1 t) as [E1 E2];
    [| |destruct (loop (le_n m) bf (f1, t)) as [f2 [a1 [a2 a3]]], (loop (le_n m) bs (s1, t)) as [s2 [b1 [b2 b3]]]] end.
  - intros ic f1 s1 [r1 [r2 r3]] Hic Hf. cbn [fst snd]. rewrite loop_sum0.
    change (sumn (le_d m) (fun k => - le_dnl m _ * _)) with (sumn (ndim (elem_of m)) (fun j => - dndx_lhs (elem_of m) ip ic j * area (elem_of m) ip j)).
    split; [hold|]. cbn [ndim Ns dndx elem_of].
    replace (le_d m * ic)%nat with (ic * le_d m)%nat by lia. reflexivity.
  - exact H.
  - cbn [fst snd] in *. injection E2 as -> -> ->. rewrite loop_sum0.
    change (sumn (le_d m) _) with (sumn (ndim (elem_of m)) (fun j => (b1 j - tau*(b3 j - b2 j)) * area (elem_of m) ip j)). hold.
Qed.
End interior.
