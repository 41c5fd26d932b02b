(** C72 continued: where the edge-scheme matrices are exact, and where they are not. *)
Require Import Reals List Bool Lra Lia Arith Psatz.
From Verif Require Import RUtil Edge_Model Edge_Proofs Elem_Model Elem_Spec Elem_Proofs Elem_Proofs2 Bnd_Model Bnd_Spec Bnd_Proofs Bnd_Props Bnd_Props2.
Import ListNotations.
Open Scope R_scope.

Definition edge_face_ok (f : fe) : Prop :=
  forall ip, (ip < f_npf f)%nat -> f_asq f ip <> 0 /\ (f_ord f ip < f_npe f)%nat /\ (f_op f ip < f_npe f)%nat.

Lemma sumn2 g : sumn 2 g = g 0%nat + g 1%nat. Proof. rewrite !sumn_S, sumn_0. ring. Qed.
Lemma sumn3' g : sumn 3 g = g 0%nat + g 1%nat + g 2%nat. Proof. rewrite !sumn_S, sumn_0. ring. Qed.

(** two dimensions: the open-boundary matrix is exact *)
Theorem C72_edge_open_matrix_2d : forall f w mdot, f_d f = 2%nat -> vf_incl w = 0 -> edge_face_ok f ->
  exact_newton (f_npe f*f_d f) (fun u => momentum_open_edge f w mdot u).
Proof.
  intros f w mdot Hd H0 Hf. apply open_exact_newton; try assumption.
  intros ip i k Hip Hi Hk. destruct (Hf ip Hip) as (Ha & _). destruct (amag_pos f ip Ha) as [P1 P2].
  pose proof (unit_normal f ip Ha) as UN. unfold dotp in UN. rewrite Hd in *. rewrite sumn2 in UN.
  unfold jopen, jopen_exact. cbv zeta. rewrite Hd, sumn2, !(A_n f ip) by assumption. rewrite <- P2.
  set (M := f_amag f ip) in *. set (n0 := f_n f ip 0) in *. set (n1 := f_n f ip 1) in *.
  set (K := 1/v_axdx f (vf_x w) ip). set (mu := vf_mu w (f_ord f ip)).
  assert (E1 : n1*n1 = 1 - n0*n0) by lra.
  destruct i as [|[|i]]; [| |lia]; (destruct k as [|[|k]]; [| |lia]); unfold dl, off; cbn [Nat.eqb]; fold n0 n1; ring [E1].
Qed.
(** three dimensions: exact when the face is parallel to a coordinate axis *)
Theorem C72_edge_open_matrix_3d_axis : forall f w mdot, f_d f = 3%nat -> vf_incl w = 0 -> edge_face_ok f ->
  (forall ip, (ip < f_npf f)%nat -> f_A f ip 0%nat * f_A f ip 1%nat * f_A f ip 2%nat = 0) ->
  exact_newton (f_npe f*f_d f) (fun u => momentum_open_edge f w mdot u).
Proof.
  intros f w mdot Hd H0 Hf Hz. apply open_exact_newton; try assumption.
  intros ip i k Hip Hi Hk. destruct (Hf ip Hip) as (Ha & _). destruct (amag_pos f ip Ha) as [P1 P2].
  pose proof (unit_normal f ip Ha) as UN. unfold dotp in UN. rewrite Hd in *. rewrite sumn3' in UN.
  specialize (Hz ip Hip). rewrite !(A_n f ip) in Hz by assumption.
  unfold jopen, jopen_exact. cbv zeta. rewrite Hd, sumn3', !(A_n f ip) by assumption. rewrite <- P2.
  set (M := f_amag f ip) in *. set (n0 := f_n f ip 0) in *. set (n1 := f_n f ip 1) in *. set (n2 := f_n f ip 2) in *.
  set (K := 1/v_axdx f (vf_x w) ip). set (mu := vf_mu w (f_ord f ip)).
  assert (Z : n0*n1*n2 = 0).
  { assert (Z : (M*M*M)*(n0*n1*n2) = 0) by (rewrite <- Hz; ring). apply Rmult_integral in Z. destruct Z as [Z|Z]; [|exact Z].
    exfalso. assert (0 < M*M*M) by (repeat apply Rmult_lt_0_compat; assumption). lra. }
  assert (E1 : n2*n2 = 1 - n0*n0 - n1*n1) by lra.
  assert (Z0 : n0*n1*n2*n2 = 0) by (rewrite Z; ring).
  assert (Z1 : n0*n1 = n0*n0*(n0*n1) + n1*n1*(n0*n1)) by (replace (n0*n0*(n0*n1) + n1*n1*(n0*n1)) with (n0*n1*(n0*n0+n1*n1)) by ring; replace (n0*n0+n1*n1) with (1 - n2*n2) by lra; lra).
  assert (Z2 : n0*n2 = n0*n0*(n0*n2) + n2*n2*(n0*n2)) by (replace (n0*n0*(n0*n2) + n2*n2*(n0*n2)) with (n0*n2*(n0*n0+n2*n2)) by ring; replace (n0*n0+n2*n2) with (1 - n1*n1) by lra; replace (n0*n2*(1-n1*n1)) with (n0*n2 - n0*n1*n2*n1) by ring; rewrite Z; ring).
  assert (Z3 : n1*n2 = n1*n1*(n1*n2) + n2*n2*(n1*n2)) by (replace (n1*n1*(n1*n2) + n2*n2*(n1*n2)) with (n1*n2*(n1*n1+n2*n2)) by ring; replace (n1*n1+n2*n2) with (1 - n0*n0) by lra; replace (n1*n2*(1-n0*n0)) with (n1*n2 - n0*n1*n2*n0) by ring; rewrite Z; ring).
  assert (D : forall a b, a = b -> mu*K*(M*M)*a = mu*K*(M*M)*b) by (intros ? ? ->; reflexivity).
  destruct i as [|[|[|i]]]; [| | |lia]; (destruct k as [|[|[|k]]]; [| | |lia]); unfold dl, off; cbn [Nat.eqb]; fold n0 n1 n2.
  - ring [E1].
  - transitivity (mu*K*(M*M)*(n0*n0*(n0*n1) + n1*n1*(n0*n1))); [ring|]. rewrite <- Z1. ring.
  - transitivity (mu*K*(M*M)*(n0*n0*(n0*n2) + n2*n2*(n0*n2))); [ring|]. rewrite <- Z2. ring.
  - transitivity (mu*K*(M*M)*(n0*n0*(n0*n1) + n1*n1*(n0*n1))); [ring|]. rewrite <- Z1. ring.
  - ring [E1].
  - transitivity (mu*K*(M*M)*(n1*n1*(n1*n2) + n2*n2*(n1*n2))); [ring|]. rewrite <- Z3. ring.
  - transitivity (mu*K*(M*M)*(n0*n0*(n0*n2) + n2*n2*(n0*n2))); [ring|]. rewrite <- Z2. ring.
  - transitivity (mu*K*(M*M)*(n1*n1*(n1*n2) + n2*n2*(n1*n2))); [ring|]. rewrite <- Z3. ring.
  - ring [E1].
Qed.
(** symmetry boundary: exact when the face is normal to a coordinate axis *)
Theorem C72_edge_symmetry_matrix_axis : forall f w, vf_incl w = 0 -> edge_face_ok f ->
  (forall ip, (ip < f_npf f)%nat -> exists k0, (k0 < f_d f)%nat /\ forall j, j <> k0 -> f_A f ip j = 0) ->
  exact_newton (f_npe f*f_d f) (fun u => momentum_sym_edge f w u).
Proof.
  intros f w H0 Hf Hk. apply sym_exact_newton; try assumption.
  intros ip i k Hip Hi Hk'. destruct (Hf ip Hip) as (Ha & _). destruct (amag_pos f ip Ha) as [P1 P2].
  destruct (Hk ip Hip) as (k0 & Hk0 & Hz).
  assert (Nz : forall j, j <> k0 -> f_n f ip j = 0) by (intros j Hj; unfold f_n; rewrite Hz by assumption; unfold Rdiv; ring).
  assert (AA : f_asq f ip = f_A f ip k0 * f_A f ip k0).
  { unfold f_asq. rewrite (sumn_ext _ _ (fun j => dl j k0 * (f_A f ip j * f_A f ip j))).
    - apply (sumn_dl (f_d f) k0 (fun j => f_A f ip j * f_A f ip j)). assumption.
    - intros j _. unfold dl. destruct (Nat.eqb_spec j k0) as [->|N]; [ring|]. rewrite (Hz j N). ring. }
  assert (S0 : sumn (f_d f) (fun j => off i j (- vf_mu w (f_ord f ip)*f_A f ip j*f_A f ip i*f_n f ip i*f_n f ip j)) = 0).
  { apply sumn_zero. intros j _. unfold off. destruct (Nat.eqb_spec i j) as [|N]; [reflexivity|].
    destruct (Nat.eq_dec j k0) as [->|N1].
    - rewrite (Nz i) by assumption. ring.
    - rewrite (Nz j) by assumption. ring. }
  unfold jsym, jsym_exact. cbv zeta. rewrite S0, Rmult_0_r, Rplus_0_r.
  destruct (Nat.eq_dec i k0) as [->|N1].
  - destruct (Nat.eq_dec k k0) as [->|N2].
    + rewrite dl_refl. unfold off. rewrite Nat.eqb_refl, AA. ring.
    + rewrite (Nz k), (Hz k) by assumption. unfold dl, off. destruct (Nat.eqb_spec k k0); [contradiction|]. destruct (Nat.eqb k0 k); ring.
  - rewrite (Nz i), (Hz i) by assumption. unfold off. destruct (Nat.eqb i k); ring.
Qed.

(* ================================================================ where they are not *)
(** one face point, node 0 on the boundary, node 1 opposite *)
Definition ex_f (d : nat) (A : nat -> R) : fe :=
  mkFe 1 1 2 d (fun _ => 0%nat) (fun _ => 0%nat) (fun _ => 0%nat) (fun _ => 1%nat) (fun _ _ => 1) (fun _ _ => 1)
    (fun _ _ _ => 0) (fun _ _ _ => 0) (fun _ => A).
(** node 0 at A, node 1 at the origin; unit viscosity, no correction terms *)
Definition ex_w (d : nat) (A : nat -> R) : vfields :=
  mkVf (fun a => if Nat.ltb a d then A a else 0) (fun _ => 1) (fun _ => 1) (fun _ _ _ => 0) (fun _ => 0) (fun _ => 0) 0 0 0.
Definition zero_sys : esys := mkE (fun _ _ => 0) (fun _ => 0).

Lemma newton_rowJ_sym f w u e s i : f_npf f = 1%nat -> vf_incl w = 0 -> edge_face_ok f -> (i < f_d f)%nat ->
  exact_newton (f_npe f*f_d f) (fun u => momentum_sym_edge f w u) ->
  eB (momentum_sym_edge f w (fun a => u a + e a) s) (f_ord f 0*f_d f+i)%nat - eB (momentum_sym_edge f w u s) (f_ord f 0*f_d f+i)%nat
  = - sumn (f_d f) (fun k => jsym f w 0 i k * jump f e 0 k).
Proof.
  intros H1 H0 Hf Hi HN. destruct (Hf 0%nat ltac:(lia)) as (Ha & Hr & Hp).
  rewrite (HN u e s (f_ord f 0*f_d f+i)%nat) by (apply flat_lt; assumption).
  destruct (mom_sym_edge_eff f w u s) as [HA _].
  rewrite (sumn_ext (f_npe f*f_d f) _ (fun j => sumn (f_d f) (fun k => rl f 0 j k * jsym f w 0 i k) * e j)).
  - rewrite rl_pick by assumption. ring.
  - intros j _. rewrite HA, H1, sumn_S, sumn_0.
    rewrite (sumn_ext (f_d f) (fun i0 => dl (f_ord f 0*f_d f+i) (f_ord f 0*f_d f+i0) * _) (fun i0 => dl i0 i * sumn (f_d f) (fun k => rl f 0 j k * jsym f w 0 i0 k))).
    + rewrite (sumn_dl (f_d f) i (fun i0 => sumn (f_d f) (fun k => rl f 0 j k * jsym f w 0 i0 k))) by assumption. ring.
    + intros i0 Hi0. rewrite dl_flat, dl_refl by assumption. rewrite (dl_sym i i0). ring.
Qed.
Lemma true_rowJ_sym f w u e s i : f_npf f = 1%nat -> vf_incl w = 0 -> edge_face_ok f -> (i < f_d f)%nat ->
  eB (momentum_sym_edge f w (fun a => u a + e a) s) (f_ord f 0*f_d f+i)%nat - eB (momentum_sym_edge f w u s) (f_ord f 0*f_d f+i)%nat
  = - sumn (f_d f) (fun k => jsym_exact f w 0 i k * jump f e 0 k).
Proof.
  intros H1 H0 Hf Hi. destruct (Hf 0%nat ltac:(lia)) as (Ha & Hr & Hp).
  destruct (mom_sym_edge_eff f w (fun a => u a + e a) s) as [_ HB]. destruct (mom_sym_edge_eff f w u s) as [_ HC]. rewrite HB, HC, H1.
  rewrite !sumn_S, !sumn_0.
  rewrite (row_pick f (f_ord f 0) (fun i => f_n f 0 i * v_Fn f w (fun a => u a + e a) 0)), (row_pick f (f_ord f 0) (fun i => f_n f 0 i * v_Fn f w u 0)) by assumption.
  rewrite dl_refl, vFn_plus by assumption. unfold jsym_exact.
  rewrite (sumn_ext (f_d f) (fun k => _ * jump f e 0 k) (fun k => (- 2*vf_mu w (f_ord f 0)*(1/v_axdx f (vf_x w) 0)*f_asq f 0*f_n f 0 i)*(f_n f 0 k*jump f e 0 k))) by (intros; ring).
  rewrite sumn_scal. unfold dotp. ring.
Qed.

(** C72, refuted: on an oblique symmetry face the coded matrix is not the sensitivity (two of the cross
    terms lack the 1/(A.dx) factor). Face area (1,1), edge vector (1,1). *)
Theorem C72_refuted_edge_symmetry_matrix_oblique :
  exists f w, vf_incl w = 0 /\ edge_face_ok f /\ f_d f = 2%nat /\ ~ exact_newton (f_npe f*f_d f) (fun u => momentum_sym_edge f w u).
Proof.
  set (A := fun _ : nat => 1). exists (ex_f 2 A), (ex_w 2 A).
  assert (OK : edge_face_ok (ex_f 2 A)).
  { intros ip Hip. split; [|cbn; split; lia]. unfold f_asq. cbn [f_d ex_f f_A]. rewrite sumn2. unfold A. lra. }
  split; [reflexivity|]. split; [exact OK|]. split; [reflexivity|]. intros HN.
  set (e := fun a : nat => if Nat.eqb a 0 then 1 else 0).
  pose proof (newton_rowJ_sym (ex_f 2 A) (ex_w 2 A) (fun _ => 0) e zero_sys 0%nat eq_refl eq_refl OK ltac:(cbn; lia) HN) as E1.
  pose proof (true_rowJ_sym (ex_f 2 A) (ex_w 2 A) (fun _ => 0) e zero_sys 0%nat eq_refl eq_refl OK ltac:(cbn; lia)) as E2.
  pose proof (eq_trans (eq_sym E1) E2) as E3. clear E1 E2 HN. rename E3 into E2.
  assert (Q : f_asq (ex_f 2 A) 0 = 2) by (unfold f_asq; cbn [f_d ex_f f_A]; rewrite sumn2; unfold A; ring).
  assert (X : v_axdx (ex_f 2 A) (vf_x (ex_w 2 A)) 0 = 2) by (unfold v_axdx, v_dx; cbn [f_d ex_f f_A f_ord f_op ex_w vf_x]; rewrite sumn2; unfold A; cbn; ring).
  destruct (amag_pos (ex_f 2 A) 0 ltac:(lra)) as [P1 P2]. rewrite Q in P2.
  assert (N : forall i j, f_n (ex_f 2 A) 0 i * f_n (ex_f 2 A) 0 j = 1/2).
  { intros i j. unfold f_n. change (f_A (ex_f 2 A) 0 i) with 1. change (f_A (ex_f 2 A) 0 j) with 1.
    replace (1/2) with (/ (f_amag (ex_f 2 A) 0 * f_amag (ex_f 2 A) 0)) by (rewrite P2; lra). field. lra. }
  change (f_d (ex_f 2 A)) with 2%nat in E2. rewrite !sumn2 in E2.
  assert (J0 : jump (ex_f 2 A) e 0 0 = 1) by (unfold jump, e; cbn; ring).
  assert (J1 : jump (ex_f 2 A) e 0 1 = 0) by (unfold jump, e; cbn; ring).
  rewrite J0, J1 in E2. unfold jsym, jsym_exact in E2. cbv zeta in E2. rewrite Q, X in E2.
  change (f_d (ex_f 2 A)) with 2%nat in E2. rewrite sumn2 in E2. rewrite dl_refl in E2. unfold off in E2. cbn [Nat.eqb] in E2.
  change (f_A (ex_f 2 A) 0 0) with 1 in E2. change (f_A (ex_f 2 A) 0 1) with 1 in E2. change (vf_mu (ex_w 2 A) (f_ord (ex_f 2 A) 0)) with 1 in E2.
  pose proof (N 0%nat 0%nat) as N00. pose proof (N 0%nat 1%nat) as N01.
  set (n0 := f_n (ex_f 2 A) 0 0) in *. set (n1 := f_n (ex_f 2 A) 0 1) in *. nra.
Qed.
