(** C75: discrete maximum principle of the edge-based scalar transport *)
Require Import Reals List Bool Arith Lra Lia.
From Verif Require Import Edge_Model Edge_Proofs Edge_Props Elem_Model Elem_Proofs Elem_Proofs2 Bnd_Model Bnd_Spec Bnd_Proofs Max_Model Max_Spec Turb_Props2.
From Verif Require Sum_Proofs Geom_Props Rad_Quad_Proofs3 Tab_LU_Props Prop_Props Rad_Props.
Import ListNotations.
Open Scope R_scope.

(** ** open faces *)
Lemma opens_eff faces q qE :
  (forall i j, eL_ (opens faces q qE) i j = lsum (fun F => sumn (f_npf (fst F)) (fun ip => dl i (f_ord (fst F) ip) * (dl j (f_ord (fst F) ip) * upside (snd F ip) 1 0))) faces) /\
  (forall i, eB (opens faces q qE) i = lsum (fun F => sumn (f_npf (fst F)) (fun ip => - (dl i (f_ord (fst F) ip) * upside (snd F ip) (q (f_ord (fst F) ip)) (qE (f_ord (fst F) ip))))) faces).
Proof.
  unfold opens.
  assert (G : forall s, (forall i j, eL_ (fold_left (fun s F => scalar_open_edge (fst F) (snd F) q qE s) faces s) i j = eL_ s i j + lsum (fun F => sumn (f_npf (fst F)) (fun ip => dl i (f_ord (fst F) ip) * (dl j (f_ord (fst F) ip) * upside (snd F ip) 1 0))) faces) /\
    (forall i, eB (fold_left (fun s F => scalar_open_edge (fst F) (snd F) q qE s) faces s) i = eB s i + lsum (fun F => sumn (f_npf (fst F)) (fun ip => - (dl i (f_ord (fst F) ip) * upside (snd F ip) (q (f_ord (fst F) ip)) (qE (f_ord (fst F) ip))))) faces)).
  { induction faces as [|F faces IH]; intros s; cbn [fold_left]; [split; intros; unfold lsum; cbn; lra|].
    destruct (IH (scalar_open_edge (fst F) (snd F) q qE s)) as [I1 I2]. destruct (scalar_open_edge_eff (fst F) (snd F) q qE s) as [E1 E2].
    split; intros; rewrite ?I1, ?I2, ?E1, ?E2, Sum_Proofs.lsum_cons; ring. }
  destruct (G (mkE (fun _ _ => 0) (fun _ => 0))) as [G1 G2]. cbn [eL_ eB] in *. split; intros; rewrite ?G1, ?G2; ring.
Qed.
(** what comes in through the open faces at node i, weighted by w *)
Definition inflow (faces : list oface) (w : nat -> R) (i : nat) : R :=
  lsum (fun F => sumn (f_npf (fst F)) (fun ip => dl i (f_ord (fst F) ip) * (if Rlt_dec 0 (snd F ip) then 0 else (- snd F ip) * w (f_ord (fst F) ip)))) faces.
Definition outflow (faces : list oface) (i : nat) : R :=
  lsum (fun F => sumn (f_npf (fst F)) (fun ip => dl i (f_ord (fst F) ip) * (if Rlt_dec 0 (snd F ip) then snd F ip else 0))) faces.
Lemma opens_diag faces q qE i j : eL_ (opens faces q qE) i j = dl j i * outflow faces i.
Proof.
  rewrite (proj1 (opens_eff faces q qE)). unfold outflow. rewrite <- lsum_scal. apply lsum_ext. intros F _. rewrite <- sumn_scal. apply sumn_ext. intros ip _.
  unfold dl, upside. destruct (Nat.eqb_spec i (f_ord (fst F) ip)) as [->|]; [|ring]. destruct (Rlt_dec 0 (snd F ip)); ring.
Qed.
Lemma opens_rhs faces q qE i : eB (opens faces q qE) i = inflow faces qE i - outflow faces i * q i.
Proof.
  rewrite (proj2 (opens_eff faces q qE)). unfold inflow, outflow. rewrite <- (Rmult_comm (q i)), <- lsum_scal.
  match goal with |- _ = ?a - ?b => replace (a - b) with (a + (-1) * b) by ring end. rewrite <- lsum_scal, <- lsum_plus.
  apply lsum_ext. intros F _. rewrite <- !sumn_scal, <- sumn_plus. apply sumn_ext. intros ip _.
  unfold dl, upside. destruct (Nat.eqb_spec i (f_ord (fst F) ip)) as [->|]; [|ring]. destruct (Rlt_dec 0 (snd F ip)); ring.
Qed.
Lemma open_out_split faces i : open_out faces i = outflow faces i - inflow faces (fun _ => 1) i.
Proof.
  unfold open_out, outflow, inflow. match goal with |- _ = ?a - ?b => replace (a - b) with (a + (-1) * b) by ring end. rewrite <- lsum_scal, <- lsum_plus.
  apply lsum_ext. intros F _. unfold out_at. rewrite <- sumn_scal, <- sumn_plus. apply sumn_ext. intros ip _.
  unfold dl. destruct (Nat.eqb_spec i (f_ord (fst F) ip)) as [->|]; [|ring]. destruct (Rlt_dec 0 (snd F ip)); ring.
Qed.
Lemma inflow_mono faces w w' i : (forall F ip, In F faces -> (ip < f_npf (fst F))%nat -> snd F ip <= 0 -> w (f_ord (fst F) ip) <= w' (f_ord (fst F) ip)) ->
  inflow faces w i <= inflow faces w' i.
Proof.
  intros H. unfold inflow. induction faces as [|F faces IH]; [unfold lsum; cbn; lra|]. rewrite !Sum_Proofs.lsum_cons.
  apply Rplus_le_compat; [|apply IH; intros; apply H; auto; now right]. apply Prop_Props.sumn_le. intros ip Hip.
  unfold dl. destruct (Nat.eqb i _); [|lra]. destruct (Rlt_dec 0 (snd F ip)) as [|C]; [lra|].
  pose proof (H F ip (or_introl eq_refl) Hip ltac:(lra)). nra.
Qed.
Lemma inflow_const faces c i : inflow faces (fun _ => c) i = c * inflow faces (fun _ => 1) i.
Proof. unfold inflow. rewrite <- lsum_scal. apply lsum_ext. intros F _. rewrite <- sumn_scal. apply sumn_ext. intros. destruct (Rlt_dec _ _); ring. Qed.
Lemma inflow_one_nonneg faces i : 0 <= inflow faces (fun _ => 1) i.
Proof. replace 0 with (inflow faces (fun _ => 0) i) by (rewrite inflow_const; ring). apply inflow_mono. intros; lra. Qed.

(** ** edges *)
Lemma nonorth_zero n f e : e_axdx n (f_x f) e <> 0 -> (exists c, forall j, (j < n)%nat -> eA e j = c * dxj (f_x f) e j) -> e_nonorth n f e = 0.
Proof.
  intros H (c & Hc). unfold e_nonorth. cbv zeta. apply sumn_zero. intros j Hj.
  set (D := sumn n (fun j => dxj (f_x f) e j * dxj (f_x f) e j)).
  assert (E1 : e_axdx n (f_x f) e = c * D). { unfold e_axdx, D. rewrite <- sumn_scal. apply sumn_ext. intros k Hk. rewrite Hc by exact Hk. ring. }
  assert (E2 : e_asq n e = c * c * D). { unfold e_asq, D. rewrite <- sumn_scal. apply sumn_ext. intros k Hk. rewrite Hc by exact Hk. ring. }
  rewrite Hc by exact Hj. rewrite E1 in *. rewrite E2.
  assert (c <> 0) by (intros ->; apply H; ring). assert (D <> 0) by (intros E; apply H; rewrite E; ring).
  replace (c * dxj (f_x f) e j - c * c * D * (1/(c*D)) * dxj (f_x f) e j) with 0 by (field; split; assumption). ring.
Qed.
Section Edge.
Variables (N : nat) (T : teq).
Hypothesis HM : mesh_fine N T.
Hypothesis HS : monotone_scheme T.
Let op := scalar_edge (t_o T) (t_f T) (t_mdot T).

Lemma edge_entries e : In e (t_es T) ->
  let m := t_mdot T e in let th := upwinding T e in let D := conductance T e in
  s00 (op e) = D + (1/2)*(m + Rabs m)*th + (1/2)*m*(1 - th) /\ s01 (op e) = - D + (1/2)*(m - Rabs m)*th + (1/2)*m*(1 - th) /\
  s10 (op e) = - s00 (op e) /\ s11 (op e) = - s01 (op e) /\
  sr0 (op e) = - (s00 (op e) * f_q (t_f T) (eL e) + s01 (op e) * f_q (t_f T) (eR e)) /\ sr1 (op e) = - sr0 (op e).
Proof.
  intros He m th D. destruct HM as (H1 & _ & _). destruct (H1 e He) as (_ & _ & _ & Hax & Hno). destruct HS as (Hho & _).
  assert (EL : e_lhsfac (t_o T) (t_f T) e = - D). { unfold e_lhsfac, D, conductance. field. lra. }
  assert (DF : e_diffFlux (t_o T) (t_f T) e = - D * (f_q (t_f T) (eR e) - f_q (t_f T) (eL e))).
  { unfold e_diffFlux. rewrite EL. destruct (o_noc (t_o T)) eqn:En; [rewrite nonorth_zero by (try lra; auto)|]; ring. }
  assert (FV : m * e_face (t_o T) (t_f T) m e = (1/2)*(m + Rabs m)*th*f_q (t_f T) (eL e) + (1/2)*(m - Rabs m)*th*f_q (t_f T) (eR e) + (1/2)*m*(1-th)*(f_q (t_f T) (eL e) + f_q (t_f T) (eR e))).
  { unfold e_face, e_qIpL, e_qIpR. rewrite Hho. cbv zeta. unfold th, upwinding.
    destruct (Rlt_dec 0 m) as [P|P]; [rewrite (Rabs_right m) by lra|rewrite (Rabs_left1 m) by lra]; field. }
  unfold op, scalar_edge. cbv zeta. cbn [s00 s01 s10 s11 sr0 sr1]. rewrite EL, DF. fold m. rewrite FV. unfold th, upwinding.
  repeat split; field.
Qed.
Lemma edge_signs e : In e (t_es T) -> s01 (op e) <= 0 /\ s10 (op e) <= 0.
Proof.
  intros He. destruct (edge_entries e He) as (E0 & E1 & E2 & _). destruct HS as (_ & H). destruct (H e He) as (Ht & Hp). rewrite E2, E0, E1. clear E0 E1 E2.
  set (m := t_mdot T e) in *. set (th := upwinding T e) in *. set (D := conductance T e) in *.
  destruct (Rle_lt_dec 0 m) as [P|P]; [rewrite (Rabs_right m) in * by lra|rewrite (Rabs_left m) in * by lra]; split; nra.
Qed.
Lemma covers_seq : covers (seq 0 N) (t_es T).
Proof. split; [apply seq_NoDup|]. intros e He. destruct HM as (H1 & _). destruct (H1 e He) as (A & B & _). split; apply in_seq; lia. Qed.
(** matrix times vector *)
Lemma edge_matvec v i : sumn N (fun j => assembled_lhs op (t_es T) i j * v j) =
  lsum (fun e => (if Nat.eqb (eL e) i then s00 (op e) * v (eL e) + s01 (op e) * v (eR e) else 0)
               + (if Nat.eqb (eR e) i then s10 (op e) * v (eL e) + s11 (op e) * v (eR e) else 0)) (t_es T).
Proof. rewrite <- Tab_LU_Props.lsum_sumn. apply assembled_matvec, covers_seq. Qed.
Lemma edge_residual i : assembled_rhs op (t_es T) i = - sumn N (fun j => assembled_lhs op (t_es T) i j * f_q (t_f T) j).
Proof.
  rewrite edge_matvec, rhs_lsum. match goal with |- _ = - ?a => replace (- a) with ((-1) * a) by ring end. rewrite <- lsum_scal.
  apply lsum_ext. intros e He. destruct (edge_entries e He) as (_ & _ & E2 & E3 & E4 & E5). unfold add_rhs. rewrite E5, E4, E2, E3.
  destruct (Nat.eqb (eL e) i), (Nat.eqb (eR e) i); ring.
Qed.
Lemma edge_rowsum i : sumn N (fun j => assembled_lhs op (t_es T) i j * 1) = net_outflow (t_mdot T) (t_es T) i.
Proof.
  rewrite (edge_matvec (fun _ => 1)). unfold net_outflow. apply lsum_ext. intros e He. destruct (edge_entries e He) as (E0 & E1 & E2 & E3 & _).
  rewrite E3, E2, E1, E0. destruct (Nat.eqb (eL e) i), (Nat.eqb (eR e) i); field.
Qed.
Lemma edge_offdiag i j : i <> j -> assembled_lhs op (t_es T) i j <= 0.
Proof.
  intros Hij. rewrite lhs_lsum. apply Rad_Props.lsum_nonpos. intros e He. destruct (edge_signs e He) as (S1 & S2). destruct HM as (H1 & _). destruct (H1 e He) as (_ & _ & Hne & _).
  unfold add_lhs. destruct (Nat.eqb_spec (eL e) i), (Nat.eqb_spec (eR e) i), (Nat.eqb_spec (eL e) j), (Nat.eqb_spec (eR e) j); cbn [andb]; subst; try congruence; lra.
Qed.

(** ** the whole system; [L] collects what nodal sources add to the diagonal *)
Variables (t : dts) (V rp1 rn qn : nat -> R).
Hypothesis HT : forall i, t_time T i = be_time t V rp1 rn (f_q (t_f T)) qn i.
Hypothesis HC : continuity_holds N T t V rp1 rn.
Hypothesis Hdt : 0 < dt t.
Hypothesis Hpos : forall i, (i < N)%nat -> 0 < V i /\ 0 < rn i.

(** transport matrix without the sources' diagonal *)
Definition tmat (i j : nat) : R := sys_lhs T i j - (if t_dir T i then 0 else if Nat.eqb i j then fst (t_src T i) else 0).
Lemma tmat_dir i j : t_dir T i = true -> tmat i j = dl j i.
Proof. intros E. unfold tmat, sys_lhs. rewrite E. unfold dl. rewrite (Nat.eqb_sym j i). destruct (Nat.eqb i j); lra. Qed.
Lemma tmat_free i j : t_dir T i = false -> tmat i j = assembled_lhs op (t_es T) i j + dl j i * (outflow (t_faces T) i + rp1 i*V i/dt t).
Proof.
  intros E. unfold tmat, sys_lhs. rewrite E. unfold raw_lhs. fold op. rewrite opens_diag, HT. unfold be_time, scalar_mass_be. cbn [fst].
  unfold dl. rewrite (Nat.eqb_sym j i). destruct (Nat.eqb i j); ring.
Qed.
Lemma tmat_mul v i : (i < N)%nat -> t_dir T i = false ->
  sumn N (fun j => tmat i j * v j) = sumn N (fun j => assembled_lhs op (t_es T) i j * v j) + (outflow (t_faces T) i + rp1 i*V i/dt t) * v i.
Proof.
  intros Hi E. rewrite (sumn_ext N _ (fun j => assembled_lhs op (t_es T) i j * v j + dl j i * ((outflow (t_faces T) i + rp1 i*V i/dt t) * v j))) by (intros; rewrite tmat_free by exact E; ring).
  rewrite sumn_plus, (sumn_dl N i (fun j => (outflow (t_faces T) i + rp1 i*V i/dt t) * v j)) by exact Hi. reflexivity.
Qed.
Lemma tmat_rowsum i : (i < N)%nat -> t_dir T i = false -> sumn N (fun j => tmat i j * 1) = rn i*V i/dt t + inflow (t_faces T) (fun _ => 1) i.
Proof.
  intros Hi E. rewrite (tmat_mul (fun _ => 1)) by assumption. rewrite edge_rowsum. pose proof (HC i Hi E) as C. rewrite open_out_split in C.
  replace ((rp1 i - rn i) * V i / dt t) with (rp1 i * V i / dt t - rn i * V i / dt t) in C by (unfold Rdiv; ring). lra.
Qed.
(** C75: the transport matrix is an M-matrix: non-positive off the diagonal, positive row sums. *)
Theorem C75_transport_matrix_is_monotone : mmatrix N tmat.
Proof.
  split.
  - intros i j Hi Hj Hij. destruct (t_dir T i) eqn:E.
    + rewrite tmat_dir by exact E. unfold dl. destruct (Nat.eqb_spec j i); [congruence|lra].
    + rewrite tmat_free by exact E. unfold dl. destruct (Nat.eqb_spec j i); [congruence|]. pose proof (edge_offdiag i j Hij). lra.
  - intros i Hi. rewrite (sumn_ext N (fun j => tmat i j) (fun j => tmat i j * 1)) by (intros; ring). destruct (t_dir T i) eqn:E.
    + rewrite (sumn_ext N _ (fun j => dl j i * 1)) by (intros; rewrite tmat_dir by exact E; reflexivity). rewrite (sumn_dl N i (fun _ => 1)) by exact Hi. lra.
    + rewrite tmat_rowsum by assumption. pose proof (inflow_one_nonneg (t_faces T) i). destruct (Hpos i Hi).
      assert (0 < rn i * V i / dt t) by (apply Rdiv_lt_0_compat; [apply Rmult_lt_0_compat; assumption|assumption]). lra.
Qed.
Lemma raw_rhs_value i : (i < N)%nat -> t_dir T i = false ->
  sys_rhs T i = (rn i*V i/dt t * qn i + inflow (t_faces T) (t_qE T) i) - sumn N (fun j => tmat i j * f_q (t_f T) j) + snd (t_src T i).
Proof.
  intros Hi E. unfold sys_rhs. rewrite E. unfold raw_rhs. fold op. rewrite opens_rhs, edge_residual, HT. unfold be_time, scalar_mass_be. cbn [snd].
  rewrite tmat_mul by assumption. unfold Rdiv. ring.
Qed.
(** the solved system in terms of the new values *)
Lemma solved_free q' i : solved N T q' -> (i < N)%nat -> t_dir T i = false ->
  sumn N (fun j => tmat i j * q' j) + fst (t_src T i) * (q' i - f_q (t_f T) i) = rn i*V i/dt t * qn i + inflow (t_faces T) (t_qE T) i + snd (t_src T i).
Proof.
  intros HSol Hi E. pose proof (HSol i Hi) as R. rewrite raw_rhs_value in R by assumption.
  rewrite (sumn_ext N _ (fun j => (tmat i j * q' j - tmat i j * f_q (t_f T) j) + dl j i * (fst (t_src T i) * (q' j - f_q (t_f T) j)))) in R.
  - rewrite sumn_plus, sumn_minus, (sumn_dl N i (fun j => fst (t_src T i) * (q' j - f_q (t_f T) j))) in R by exact Hi. lra.
  - intros j Hj. unfold tmat. rewrite E. unfold dl. rewrite (Nat.eqb_sym j i). destruct (Nat.eqb i j); ring.
Qed.
Lemma solved_dir q' i : solved N T q' -> (i < N)%nat -> t_dir T i = true -> q' i = t_bc T i.
Proof.
  intros HSol Hi E. pose proof (HSol i Hi) as R. unfold sys_lhs, sys_rhs in R. rewrite E in R.
  rewrite (sumn_ext N _ (fun j => dl j i * (q' j - f_q (t_f T) j))) in R by (intros; unfold dl; rewrite (Nat.eqb_sym j i); destruct (Nat.eqb _ _); reflexivity).
  rewrite (sumn_dl N i (fun j => q' j - f_q (t_f T) j)) in R by exact Hi. lra.
Qed.
(** C75, maximum principle: without further sources the new values stay within the range of the old values and of the values
    supplied at open and Dirichlet boundaries, for every mesh, flow, time step and starting iterate. *)
Theorem C75_maximum_principle q' lo hi : (forall i, t_src T i = (0, 0)) -> solved N T q' ->
  supplied_within N T lo hi -> within N qn lo hi -> within N q' lo hi.
Proof.
  intros Hs HSol (Ho & Hd) Hq.
  assert (FR : forall i, (i < N)%nat -> t_dir T i = false -> sumn N (fun j => tmat i j * q' j) = rn i*V i/dt t * qn i + inflow (t_faces T) (t_qE T) i).
  { intros i Hi E. pose proof (solved_free q' i HSol Hi E) as R. rewrite Hs in R. cbn [fst snd] in R. lra. }
  assert (W : forall i, (i < N)%nat -> 0 < rn i * V i / dt t) by (intros i Hi; destruct (Hpos i Hi); apply Rdiv_lt_0_compat; [apply Rmult_lt_0_compat; assumption|assumption]).
  assert (DR : forall i v, (i < N)%nat -> t_dir T i = true -> sumn N (fun j => tmat i j * v j) = v i).
  { intros i v Hi E. rewrite (sumn_ext N _ (fun j => dl j i * v j)) by (intros; rewrite tmat_dir by exact E; reflexivity). apply sumn_dl, Hi. }
  assert (Lo : forall i, (i < N)%nat -> 0 <= q' i - lo).
  { apply (mmatrix_pos N tmat (fun _ => 0) (fun i => q' i - lo) (fun i => sumn N (fun j => tmat i j * (q' j - lo)) + 0 * (q' i - lo)) C75_transport_matrix_is_monotone).
    - intros; lra.
    - intros i Hi. rewrite (sumn_ext N _ (fun j => tmat i j * q' j - lo * (tmat i j * 1))) by (intros; ring). rewrite sumn_minus, sumn_scal. destruct (t_dir T i) eqn:E.
      + rewrite (DR i (fun _ => 1)), (DR i q') by assumption. rewrite (solved_dir q' i HSol Hi E). destruct (Hd i Hi E). lra.
      + rewrite FR, tmat_rowsum by assumption. pose proof (inflow_mono (t_faces T) (fun _ => lo) (t_qE T) i (fun F ip H1 H2 H3 => proj1 (Ho F ip H1 H2 H3))) as M.
        rewrite inflow_const in M. specialize (W i Hi). destruct (Hq i Hi). nra.
    - intros i Hi. reflexivity. }
  assert (Hi' : forall i, (i < N)%nat -> 0 <= hi - q' i).
  { apply (mmatrix_pos N tmat (fun _ => 0) (fun i => hi - q' i) (fun i => sumn N (fun j => tmat i j * (hi - q' j)) + 0 * (hi - q' i)) C75_transport_matrix_is_monotone).
    - intros; lra.
    - intros i Hi. rewrite (sumn_ext N _ (fun j => hi * (tmat i j * 1) - tmat i j * q' j)) by (intros; ring). rewrite sumn_minus, sumn_scal. destruct (t_dir T i) eqn:E.
      + rewrite (DR i (fun _ => 1)), (DR i q') by assumption. rewrite (solved_dir q' i HSol Hi E). destruct (Hd i Hi E). lra.
      + rewrite FR, tmat_rowsum by assumption. pose proof (inflow_mono (t_faces T) (t_qE T) (fun _ => hi) i (fun F ip H1 H2 H3 => proj2 (Ho F ip H1 H2 H3))) as M.
        rewrite inflow_const in M. specialize (W i Hi). destruct (Hq i Hi). nra.
    - intros i Hi. reflexivity. }
  intros i Hi. specialize (Lo i Hi). specialize (Hi' i Hi). lra.
Qed.
(** A nodal source that is non-negative when the unknown is (L q + S >= 0, L >= 0) keeps a non-negative unknown non-negative. *)
Theorem C75_nonnegative_with_sources q' : solved N T q' ->
  (forall i, (i < N)%nat -> 0 <= fst (t_src T i) /\ 0 <= fst (t_src T i) * f_q (t_f T) i + snd (t_src T i)) ->
  (forall F ip, In F (t_faces T) -> (ip < f_npf (fst F))%nat -> snd F ip <= 0 -> 0 <= t_qE T (f_ord (fst F) ip)) ->
  (forall i, (i < N)%nat -> 0 <= qn i) -> (forall i, (i < N)%nat -> t_dir T i = true -> 0 <= t_bc T i) ->
  forall i, (i < N)%nat -> 0 <= q' i.
Proof.
  intros HSol Hs Ho Hq Hd.
  apply (mmatrix_pos N tmat (fun i => if t_dir T i then 0 else fst (t_src T i)) q' (fun i => sumn N (fun j => tmat i j * q' j) + (if t_dir T i then 0 else fst (t_src T i)) * q' i) C75_transport_matrix_is_monotone).
  - intros i Hi. destruct (t_dir T i); [lra|apply Hs, Hi].
  - intros i Hi. destruct (t_dir T i) eqn:E.
    + rewrite (sumn_ext N _ (fun j => dl j i * q' j)) by (intros; rewrite tmat_dir by exact E; reflexivity). rewrite sumn_dl by exact Hi.
      rewrite (solved_dir q' i HSol Hi E). specialize (Hd i Hi E). lra.
    + pose proof (solved_free q' i HSol Hi E) as R. destruct (Hs i Hi) as (S1 & S2). destruct (Hpos i Hi).
      pose proof (inflow_mono (t_faces T) (fun _ => 0) (t_qE T) i Ho) as M. rewrite inflow_const in M.
      assert (0 < rn i * V i / dt t) by (apply Rdiv_lt_0_compat; [apply Rmult_lt_0_compat; assumption|assumption]). specialize (Hq i Hi). nra.
  - intros i Hi. reflexivity.
Qed.
End Edge.
