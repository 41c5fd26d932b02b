(** C95 continued: exposed faces *)
Require Import Reals List Bool Arith Lia Lra FunctionalExtensionality.
From Verif Require Import Edge_Model Edge_Proofs Elem_Model Elem_Spec Elem_Proofs Bnd_Model Bnd_Spec Leg_Model Leg_Props Leg_Props2.
Open Scope R_scope.

Definition face_of (m : ffc) : fe :=
  mkFe (lf_ip m) (lf_npf m) (lf_n m) (lf_d m) (lf_ord m) (lf_nn m) (lf_lf m) (lf_op m)
    (fun ip ic => lf_N m (ip*lf_npf m+ic)%nat) (fun ip ic => lf_Na m (ip*lf_npf m+ic)%nat)
    (fun ip ic j => lf_dn m (lf_d m*lf_n m*ip + ic*lf_d m + j)%nat)
    (fun ip ic j => lf_dnl m (lf_d m*lf_n m*ip + ic*lf_d m + j)%nat)
    (fun ip j => lf_A m (ip*lf_d m+j)%nat).

Lemma holds_B0 n f s i v : v = 0 -> holds n f s -> holds n f (addB i v s).
Proof.
  intros -> [[H1 H2] H3]. split; [split; [exact H1|]|exact H3]. intros a. cbn [eB addB]. rewrite H2. destruct (Nat.eqb a i); ring.
Qed.
Lemma holds_L0 n f s i j v : v = 0 -> holds n f s -> holds n f (addL i j v s).
Proof.
  intros -> [[H1 H2] H3]. split; [split; [|exact H2]|exact H3]. intros a b Ha Hb. cbn [eL_ addL]. rewrite H1 by assumption.
  destruct (_ && _)%bool; ring.
Qed.
Lemma holds_loop0 n k bs f s : (forall i f s, (i < k)%nat -> holds n f s -> holds n f (bs i s)) -> holds n f s -> holds n f (loop k bs s).
Proof. intros H H0. induction k; [exact H0|]. rewrite loop_S. apply H; [lia|]. apply IHk. intros; apply H; [lia|assumption]. Qed.
Lemma gather_v m q ic j : (j < lf_d m)%nat -> off_face_v m q (ic*lf_d m+j) = q (lf_ord m ic*lf_d m+j)%nat.
Proof.
  intros Hj. unfold off_face_v. replace (ic*lf_d m+j)%nat with (j + ic*lf_d m)%nat by lia.
  rewrite Nat.div_add, Nat.mod_add, Nat.div_small, Nat.mod_small by lia. reflexivity.
Qed.
Lemma loop_ext_R n (f g : nat -> R -> R) a : (forall k x, (k < n)%nat -> f k x = g k x) -> loop n f a = loop n g a.
Proof. intros H. induction n; [reflexivity|]. rewrite !loop_S, IHn by (intros; apply H; lia). apply H. lia. Qed.
Lemma fold_loop n (f : nat -> R) a : fold_left (fun t j => t + f j) (seq 0 n) a = loop n (fun j t => t + f j) a.
Proof. reflexivity. Qed.

Section face.
Variable m : ffc.
Hypothesis Hm : face_ok (face_of m).

Lemma ord_lt ic : (ic < lf_npf m)%nat -> (lf_ord m ic < lf_n m)%nat.
Proof. apply (proj1 Hm). Qed.
Lemma nn_lt ip : (ip < lf_ip m)%nat -> (lf_nn m ip < lf_n m)%nat.
Proof. intros H. destruct (proj2 Hm ip H) as [H1 H2]. cbn [f_nn f_ord f_lf f_npf face_of] in *. rewrite H2. apply ord_lt. exact H1. Qed.

Lemma scalar_open_leg o G mdot q qE f s : holds (lf_n m) f s ->
  holds (lf_n m) (leg_scalar_open m o G mdot q qE f) (scalar_open_elem (face_of m) o G mdot q qE s).
Proof.
  intros H0. unfold leg_scalar_open, scalar_open_elem. cbn [f_ip f_nn f_npf f_ord f_Na face_of].
  apply holds_loop; [|exact H0]. intros ip f' s' Hip H. cbv zeta.
  pose proof (nn_lt ip Hip) as Hn. destruct (proj2 Hm ip Hip) as [Hlf Hnn]. cbn [f_nn f_ord f_lf f_npf face_of] in Hlf, Hnn.
  rewrite (fused3 (lf_npf m) (fun ic => lf_Na m (ip*lf_npf m+ic)%nat * off_face m q ic) (fun ic => lf_Na m (ip*lf_npf m+ic)%nat * off_face m qE ic)
     (fun ic j => lf_Na m (ip*lf_npf m+ic)%nat * off_face_v m (ou_x o) (ic*lf_d m+j)%nat)).
  cbv iota beta.
  change (sumn (lf_npf m) (fun ic => lf_Na m (ip*lf_npf m+ic)%nat * off_face m q ic)) with (at_face_adv (face_of m) q ip).
  change (sumn (lf_npf m) (fun ic => lf_Na m (ip*lf_npf m+ic)%nat * off_face m qE ic)) with (at_face_adv (face_of m) qE ip).
  assert (EU : q (lf_nn m ip) + loop (lf_d m) (fun i a => a + (sumn (lf_npf m) (fun ic => lf_Na m (ip*lf_npf m+ic)%nat * off_face_v m (ou_x o) (ic*lf_d m+i)%nat)
        - ou_x o (lf_nn m ip*lf_d m+i)%nat) * G (lf_nn m ip) i * ou_hoUpw o) 0 = oqUpw (face_of m) o G q ip).
  { unfold oqUpw. cbn [f_ord f_lf f_nn f_d face_of]. rewrite <- Hnn. f_equal. apply loop_ext_R. intros i x Hi. do 4 f_equal.
    unfold of_xb, at_face_adv. cbn [f_npf f_Na f_ord f_d face_of]. apply sumn_ext. intros ic Hic. rewrite gather_v by assumption. reflexivity. }
  rewrite EU. set (qU := oqUpw _ _ _ _ _).
  destruct (Rlt_dec 0 (mdot ip)) as [P|P].
  - apply holds_B0; [ring|]. rewrite !Rmult_1_r. apply holds_loop.
    + intros ic f1 s1 Hic Hf. eapply holds_incL; [exact Hf|exact Hn|apply ord_lt; exact Hic|reflexivity].
    + eapply holds_incL; [|exact Hn|exact Hn|reflexivity]. apply holds_incB; [exact Hn|]. exact H.
  - replace (mdot ip * at_face_adv (face_of m) qE ip * (1 - 0)) with (mdot ip * at_face_adv (face_of m) qE ip) by ring.
    apply holds_incB; [exact Hn|]. apply holds_loop0; [intros; apply holds_L0; [ring|assumption]|].
    apply holds_L0; [ring|]. apply holds_B0; [ring|]. exact H.
Qed.

Lemma fusedC n (f g : nat -> R) (h k : nat -> nat -> R) b0 :
  loop n (fun ic (st : R * (R * ((nat -> R) * (nat -> R)))) => let '(a, (b, (c, e))) := st in
     (a + f ic, (b + g ic, ((fun j => c j + h ic j), (fun j => e j + k ic j))))) (0, (b0, ((fun _ => 0), (fun _ => 0))))
  = (sumn n f, (loop n (fun ic b => b + g ic) b0, ((fun j => sumn n (fun ic => h ic j)), (fun j => sumn n (fun ic => k ic j))))).
Proof.
  induction n; [reflexivity|]. rewrite !loop_S, IHn, !sumn_S.
  replace (fun j => sumn n (fun ic => h ic j) + h n j) with (fun j => sumn (S n) (fun ic => h ic j))
    by (apply functional_extensionality; intros j; rewrite sumn_S; reflexivity).
  replace (fun j => sumn n (fun ic => k ic j) + k n j) with (fun j => sumn (S n) (fun ic => k ic j))
    by (apply functional_extensionality; intros j; rewrite sumn_S; reflexivity).
  reflexivity.
Qed.
Lemma loop_nest n d (g : nat -> nat -> R) a : loop n (fun ic a => loop d (fun j a => a + g ic j) a) a = a + sumn n (fun ic => sumn d (g ic)).
Proof. induction n; [rewrite sumn_0; cbn; ring|]. rewrite loop_S, loop_sum, IHn, sumn_S. ring. Qed.

Lemma continuity_open_leg pen tau c f s : holds (lf_n m) f s ->
  holds (lf_n m) (leg_continuity_open m pen tau c f) (continuity_open_elem (face_of m) pen tau c s).
Proof.
  intros H0. unfold leg_continuity_open, continuity_open_elem. cbn [f_ip f_nn f_npf f_npe f_ord f_N f_d face_of].
  apply holds_loop; [|exact H0]. intros ip f' s' Hip H. cbv zeta. pose proof (nn_lt ip Hip) as Hn.
  rewrite (fusedC (lf_npf m) (fun ic => lf_N m (ip*lf_npf m+ic)%nat * of_p c (lf_ord m ic)) (fun ic => lf_N m (ip*lf_npf m+ic)%nat * off_face m (of_pbc c) ic)
    (fun ic j => lf_N m (ip*lf_npf m+ic)%nat * off_face m (of_rho c) ic * off_face_v m (of_v c) (ic*lf_d m+j)%nat)
    (fun ic j => lf_N m (ip*lf_npf m+ic)%nat * off_face_v m (of_Gp c) (ic*lf_d m+j)%nat)).
  cbv iota beta. rewrite loop_nest, Rplus_0_l.
  rewrite (loop_fun (lf_n m) (fun ic j => lf_dn m (lf_d m*lf_n m*ip + ic*lf_d m + j)%nat * of_p c ic)).
  rewrite (loop_sum0 (lf_d m) (fun j => lf_A m (ip*lf_d m+j)%nat * lf_A m (ip*lf_d m+j)%nat)).
  change (sqrt (sumn (lf_d m) _)) with (f_amag (face_of m) ip).
  change (sumn (lf_npf m) (fun ic => sumn (lf_d m) (fun j => lf_dn m (lf_d m * lf_n m * ip + lf_ord m ic * lf_d m + j)%nat * lf_A m (ip * lf_d m + j)%nat)) / f_amag (face_of m) ip)
    with (invL (face_of m) ip).
  set (pB0 := sumn (lf_npf m) _). change (at_face (face_of m) (of_p c) ip) with pB0.
  match goal with |- holds _ (incB _ (- (?a / tau)) _) (addB _ (- (?b / tau)) _) => assert (EM : a = b) end.
  { rewrite fold_loop. apply loop_ext_R. intros j x Hj. f_equal. f_equal. f_equal; [|f_equal; f_equal].
    - apply sumn_ext. intros ic Hic. rewrite gather_v by assumption. reflexivity.
    - apply sumn_ext. intros ic Hic. rewrite gather_v by assumption. reflexivity. }
  rewrite EM. apply holds_incB; [exact Hn|]. apply holds_loop.
  - intros ic f1 s1 Hic Hf. rewrite loop_sum0. eapply holds_incL; [exact Hf|exact Hn|exact Hic|reflexivity].
  - apply holds_loop; [|exact H]. intros ic f1 s1 Hic Hf. eapply holds_incL; [exact Hf|exact Hn|apply ord_lt; exact Hic|reflexivity].
Qed.

Let N := (lf_n m * lf_d m)%nat.
Ltac hold := repeat first [ assumption | apply holds_incB | (eapply holds_incL; [ | | |apply flat_ix])
   | (apply row_lt; assumption) | rewrite <- !Nat.add_assoc; apply row_lt; assumption].

Lemma visc_face_leg open visc incl nx u ip f s : (ip < lf_ip m)%nat ->
  (forall i, (i < lf_d m)%nat -> nx i = f_n (face_of m) ip i) -> holds N f s ->
  holds N (leg_visc_face open m visc incl nx u ip f) (mom_visc_elem open (face_of m) visc incl u ip s).
Proof.
  intros Hip Hnx H0. pose proof (nn_lt ip Hip) as Hn. unfold leg_visc_face, mom_visc_elem. cbn [f_npe f_d f_nn face_of].
  apply holds_loop; [|exact H0]. intros ic f1 s1 Hic H1. apply holds_loop; [|exact H1]. intros j f2 s2 Hj H2.
  apply holds_loop; [|exact H2]. intros i f3 s3 Hi H3. cbv zeta.
  apply holds_loop.
  - intros l f4 s4 Hl H4. destruct (Nat.eqb i l); [exact H4|]. rewrite !Hnx by assumption. cbn [f_A f_dn face_of]. hold.
  - rewrite !Hnx by assumption. cbn [f_A f_dn face_of]. hold.
Qed.

Lemma sym_leg mu incl u f s : holds N f s ->
  holds N (leg_momentum_sym m mu incl u f) (momentum_sym_elem (face_of m) mu incl u s).
Proof.
  intros H0. unfold leg_momentum_sym, momentum_sym_elem. cbn [f_ip face_of]. apply holds_loop; [|exact H0].
  intros ip f1 s1 Hip H1. cbv zeta. rewrite !loop_sum0. apply visc_face_leg; [exact Hip| |exact H1].
  intros i Hi. reflexivity.
Qed.

Lemma fused6 n (f g : nat -> R) (h1 h2 h3 h4 : nat -> nat -> R) :
  loop n (fun ic (st : R * (R * ((nat -> R) * ((nat -> R) * ((nat -> R) * (nat -> R)))))) => let '(a, (b, (c1, (c2, (c3, c4))))) := st in
     (a + f ic, (b + g ic, ((fun j => c1 j + h1 ic j), ((fun j => c2 j + h2 ic j), ((fun j => c3 j + h3 ic j), (fun j => c4 j + h4 ic j)))))))
     (0, (0, ((fun _ => 0), ((fun _ => 0), ((fun _ => 0), (fun _ => 0))))))
  = (sumn n f, (sumn n g, ((fun j => sumn n (fun ic => h1 ic j)), ((fun j => sumn n (fun ic => h2 ic j)),
      ((fun j => sumn n (fun ic => h3 ic j)), (fun j => sumn n (fun ic => h4 ic j))))))).
Proof.
  assert (E : forall (h : nat -> nat -> R) n, (fun j => sumn n (fun ic => h ic j) + h n j) = (fun j => sumn (S n) (fun ic => h ic j)))
    by (intros; apply functional_extensionality; intros j; rewrite sumn_S; reflexivity).
  induction n as [|n IH]; [reflexivity|]. rewrite loop_S, IH, <- (E h1 n), <- (E h2 n), <- (E h3 n), <- (E h4 n), !sumn_S. reflexivity.
Qed.

Lemma momentum_open_leg o w mdot u f s : holds N f s ->
  holds N (leg_momentum_open m o w mdot u f) (momentum_open_elem (face_of m) o w mdot u s).
Proof.
  intros H0. unfold leg_momentum_open, momentum_open_elem. cbn [f_ip face_of]. apply holds_loop; [|exact H0].
  intros ip f1 s1 Hip H1. cbv zeta. pose proof (nn_lt ip Hip) as Hn.
  rewrite (fused6 (lf_npf m) (fun ic => lf_N m (ip*lf_npf m+ic)%nat * off_face m (vf_rho w) ic) (fun ic => lf_N m (ip*lf_npf m+ic)%nat * off_face m (vf_mu w) ic)
    (fun ic j => lf_Na m (ip*lf_npf m+ic)%nat * off_face_v m (vf_bc w) (ic*lf_d m+j)%nat)
    (fun ic j => lf_Na m (ip*lf_npf m+ic)%nat * u (lf_ord m ic*lf_d m+j)%nat)
    (fun ic j => lf_Na m (ip*lf_npf m+ic)%nat * ou_x o (lf_ord m ic*lf_d m+j)%nat)
    (fun ic j => lf_N m (ip*lf_npf m+ic)%nat * off_face m (vf_rho w) ic * off_face_v m (vf_mv w) (ic*lf_d m+j)%nat)).
  cbv iota beta.
  rewrite (loop_sum0 (lf_d m) (fun j => lf_A m (ip*lf_d m+j)%nat * lf_A m (ip*lf_d m+j)%nat)).
  change (sqrt (sumn (lf_d m) _)) with (f_amag (face_of m) ip).
  change (sumn (lf_npf m) (fun ic => lf_N m (ip*lf_npf m+ic)%nat * off_face m (vf_rho w) ic)) with (at_face (face_of m) (vf_rho w) ip).
  change (sumn (lf_npf m) (fun ic => lf_N m (ip*lf_npf m+ic)%nat * off_face m (vf_mu w) ic)) with (at_face (face_of m) (vf_mu w) ip).
  apply visc_face_leg; [exact Hip|reflexivity|].
  assert (EB : forall j, (j < lf_d m)%nat -> sumn (lf_npf m) (fun ic => lf_Na m (ip*lf_npf m+ic)%nat * off_face_v m (vf_bc w) (ic*lf_d m+j)%nat)
     = at_face_adv (face_of m) (fun a => vf_bc w (a*lf_d m+j)%nat) ip).
  { intros j Hj. unfold at_face_adv. cbn [f_npf f_Na f_ord face_of]. apply sumn_ext. intros ic Hic. rewrite gather_v by assumption. reflexivity. }
  unfold mom_open_adv_elem. cbn [f_d f_nn f_npf f_ord f_Na face_of]. cbv zeta.
  destruct (Rlt_dec 0 (mdot ip)) as [P|P].
  - apply holds_loop; [|exact H1]. intros i f2 s2 Hi H2. apply holds_B0; [ring|]. rewrite !Rmult_1_r.
    apply holds_loop.
    + intros ic f3 s3 Hic H3. pose proof (ord_lt ic Hic) as Ho. hold.
    + eapply holds_incL; [|apply row_lt; assumption|apply row_lt; assumption|unfold N; rewrite Nat.mul_assoc; reflexivity].
      apply holds_incB; [apply row_lt; assumption|]. exact H2.
  - rewrite !loop_sum0.
    apply holds_loop; [|exact H1]. intros i f2 s2 Hi H2.
    match goal with |- holds N (incB _ ?a _) (addB _ ?b _) => replace b with a end.
    2:{ rewrite EB by assumption.
        rewrite (sumn_ext (lf_d m) (fun k => sumn (lf_npf m) (fun ic => lf_Na m _ * off_face_v m (vf_bc w) _) * _)
           (fun j => at_face_adv (face_of m) (fun a => vf_bc w (a*lf_d m+j)%nat) ip * f_n (face_of m) ip j))
           by (intros j Hj; rewrite EB by assumption; reflexivity).
        rewrite (sumn_ext (lf_d m) (fun k => sumn (lf_npf m) (fun ic => lf_N m _ * off_face m (vf_rho w) ic * _) * _)
           (fun j => sumn (lf_npf m) (fun ic => f_N (face_of m) ip ic * vf_rho w (lf_ord m ic) * vf_mv w (lf_ord m ic * lf_d m + j)%nat) * f_A (face_of m) ip j))
           by (intros j Hj; f_equal; apply sumn_ext; intros ic Hic; rewrite gather_v by assumption; reflexivity).
        rewrite Rminus_0_r, Rmult_1_r. reflexivity. }
    apply holds_incB; [apply row_lt; assumption|]. apply holds_loop0; [intros; apply holds_L0; [ring|assumption]|].
    apply holds_L0; [ring|]. apply holds_B0; [ring|]. exact H2.
Qed.
End face.
