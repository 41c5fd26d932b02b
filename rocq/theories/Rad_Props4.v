(** C64, continued: thermal equilibrium in an enclosure, and the convergence norm. *)
From Coq Require Import Reals List Bool Arith Lia Lra Psatz.
From Verif Require Import RUtil Edge_Model Edge_Proofs Edge_Props Elem_Model Rad_Model Rad_Props Rad_Props3.
From Verif Require ME_Model Rad_Quad_Model Rad_Quad_Props.
Import ListNotations.
Local Open Scope R_scope.

(** an ordinate of the quadrature set, as read by the solver *)
Definition ord_of (o : Rad_Quad_Model.ordinate) : ordn :=
  let d := Rad_Quad_Model.o_dir o in
  mkOrd (fun j => match j with 0%nat => ME_Model.vx d | 1%nat => ME_Model.vy d | 2%nat => ME_Model.vz d | _ => 0 end) (Rad_Quad_Model.o_wt o).
(** all ordinates of the set with the same uniform intensity *)
Definition uniform_set (nq : nat) (c : R) : list (ordn * (nat -> R)) :=
  map (fun o => (ord_of o, fun _ : nat => c)) (Rad_Quad_Model.quadrature_set nq).

(** a solver that returns no increment when the residual vanishes *)
Definition zero_on_zero (k : scheme) (scat : bool) (n : nat) (es : list edge) (bs : list bip)
    (f : (nat -> R) -> (nat -> R) -> rfields) (solve : (nat -> R) -> (nat -> R) -> ordn -> (nat -> R) -> nat -> R) : Prop :=
  forall Ibc G o J, (forall i, rad_rhs k scat n (od_S o) (f Ibc G) es bs J i = 0) -> forall i, solve Ibc G o J i = 0.

Lemma lsum_quad nq (F : Rad_Quad_Model.ordinate -> R) : lsum F (Rad_Quad_Model.quadrature_set nq) = ME_Model.rsum (map F (Rad_Quad_Model.quadrature_set nq)).
Proof. reflexivity. Qed.

(** a loop in which nothing moves *)
Lemma loop_still n bs solve os : forall a,
  (forall G o Io i, In (o, Io) os -> solve G o Io i = 0) ->
  (forall oI i, In oI (fst (ordinate_loop n bs solve os a)) -> exists Io, In (fst oI, Io) os /\ snd oI i = Io i)
  /\ (forall i (F : ordn -> R -> R), lsum (fun oI => F (fst oI) (snd oI i)) (fst (ordinate_loop n bs solve os a)) = lsum (fun oI => F (fst oI) (snd oI i)) os).
Proof.
  induction os as [|[o Io] os IH]; intros a H; [split; [intros ? ? []|reflexivity]|]. cbn [ordinate_loop].
  set (I' := fun i => 1 * solve (ac_G a) o Io i + 1 * Io i).
  assert (E : forall i, I' i = Io i) by (intros i; unfold I'; rewrite (H _ _ _ i (or_introl eq_refl)); ring).
  destruct (IH (accumulate n bs o I' a)) as [IH1 IH2]; [intros; apply H; right; assumption|].
  destruct (ordinate_loop n bs solve os _) as [r a']. cbn [fst snd] in *. split.
  - intros oI i [<-|Ho]; [exists Io; split; [left; reflexivity|apply E]|].
    destruct (IH1 oI i Ho) as (J & J1 & J2). exists J. split; [right; assumption|assumption].
  - intros i F. unfold lsum in *. cbn [map fold_right fst snd]. rewrite IH2, E. reflexivity.
Qed.

(** an isothermal enclosure without scattering and with walls that absorb or transmit everything they
    receive (emissivity + transmissivity = 1) is a fixed point of the iteration, for every order of the
    quadrature, every mesh with closed control volumes, both edge schemes: uniform intensity, scalar
    flux 4 sigma T^4, no net heat flux and no divergence of the heat flux *)
Theorem C64_isothermal_enclosure_is_fixed_point : forall k nq es bs solve eps tau sb T mua x vol irr0 G0 q0,
  (0 < nq)%nat -> (forall a, eps a + tau a = 1) ->
  (forall b, In b bs -> lsum fst (b_N b) = 1) ->
  (forall i, closed_cv es bs i) ->
  zero_on_zero k false 3 es bs (fun Ibc G => mkRF x mua (fun _ => 0) G (fun a => rad_source sb (mua a) T) vol Ibc) solve ->
  let ibc := fun irr a => wall_intensity sb (eps a) (tau a) T T (irr a) in
  let st' := iteration 3 bs ibc solve (mkRS (uniform_set nq (blackbody sb T)) G0 q0 irr0) in
  (forall oI i, In oI (rs_I st') -> snd oI i = blackbody sb T)
  /\ (forall i, rs_G st' i = 4 * sb * T^4)
  /\ (forall i j, (j < 3)%nat -> rs_q st' i j = 0)
  /\ (forall i, div_qr sb (mua i) T (rs_G st' i) = 0).
Proof.
  intros k nq es bs solve eps tau sb T mua x vol irr0 G0 q0 Hn He HN HCl HS ibc st'.
  pose proof PI_RGT_0 as HPI. set (c := blackbody sb T) in *.
  destruct (C64_moments 3 bs ibc solve (mkRS (uniform_set nq c) G0 q0 irr0)) as (_ & MG & MQ & _). fold st' in MG, MQ.
  assert (W : forall a, ibc irr0 a = c).
  { intros a. unfold ibc, c, wall_intensity, blackbody. replace (tau a) with (1 - eps a) by (specialize (He a); lra). field. lra. }
  assert (ST : forall G o Io i, In (o, Io) (uniform_set nq c) -> solve (ibc irr0) G o Io i = 0).
  { intros G o Io i Ho. unfold uniform_set in Ho. apply in_map_iff in Ho. destruct Ho as (o1 & E & _). injection E as <- <-.
    apply HS. clear i. intros i. apply (C63_equilibrium_is_exact k false 3 _ _ es bs _ c); cbn [r_Ibc r_src r_mus r_mua r_G]; try assumption.
    - reflexivity.
    - intros a. unfold rad_source, c, blackbody. field. lra.
    - right. reflexivity.
    - apply HCl. }
  destruct (loop_still 3 bs (solve (ibc irr0)) (uniform_set nq c) zero_acc ST) as [S1 S2].
  assert (RI : rs_I st' = fst (ordinate_loop 3 bs (solve (ibc irr0)) (uniform_set nq c) zero_acc)).
  { unfold st', iteration. cbn [rs_irr rs_I]. destruct (ordinate_loop 3 bs _ _ _). reflexivity. }
  assert (SW : forall F : ordn -> R, lsum (fun oI => F (fst oI) * c) (uniform_set nq c)
     = c * lsum (fun o => F (ord_of o)) (Rad_Quad_Model.quadrature_set nq)).
  { intros F. unfold uniform_set. unfold lsum at 1. rewrite map_map. rewrite <- lsum_scal. unfold lsum. f_equal. apply map_ext. intros o. cbn [fst]. ring. }
  assert (GG : forall i, rs_G st' i = 4 * sb * T^4).
  { intros i. rewrite MG, RI, (S2 i (fun o v => od_w o * v)).
    rewrite (lsum_ext _ (fun oI => od_w (fst oI) * c)).
    - rewrite SW. cbn [ord_of od_w]. rewrite lsum_quad, Rad_Quad_Props.C62_weights_total by assumption.
      unfold c, blackbody. field. lra.
    - intros oI Ho. unfold uniform_set in Ho. apply in_map_iff in Ho. destruct Ho as (o1 & <- & _). reflexivity. }
  split; [|split; [|split]].
  - intros oI i Ho. rewrite RI in Ho. destruct (S1 oI i Ho) as (Io & H1 & H2).
    unfold uniform_set in H1. apply in_map_iff in H1. destruct H1 as (o1 & E & _). injection E as _ <-. exact H2.
  - exact GG.
  - intros i j Hj. rewrite MQ, RI, (S2 i (fun o v => od_w o * od_S o j * v)).
    rewrite (lsum_ext _ (fun oI => od_w (fst oI) * od_S (fst oI) j * c)).
    + rewrite (SW (fun o => od_w o * od_S o j)). cbn [ord_of od_w od_S].
      destruct (Rad_Quad_Props.C62_first_moment_zero nq) as (X & Y & Z).
      destruct j as [|[|[|j]]]; [| | |lia]; rewrite lsum_quad; [rewrite X|rewrite Y|rewrite Z]; ring.
    + intros oI Ho. unfold uniform_set in Ho. apply in_map_iff in Ho. destruct Ho as (o1 & <- & _). reflexivity.
  - intros i. rewrite GG. unfold div_qr. ring.
Qed.

(** the same enclosure with a partly reflecting wall is not: started in exact equilibrium (intensity and
    irradiation of the black body), the irradiation recomputed on a wall normal to x with the first-order
    set is 2/sqrt 3 times what it should be, and the next wall intensity is no longer the black body's *)
Theorem C64_grey_wall_equilibrium_refuted : forall es bs solve k eps tau sb T mua x vol G0 q0 b area0,
  0 < sb -> 0 < T -> 0 < area0 -> (forall a, eps a + tau a < 1) ->
  (forall b, In b bs -> lsum fst (b_N b) = 1) ->
  (forall i, closed_cv es bs i) ->
  zero_on_zero k false 3 es bs (fun Ibc G => mkRF x mua (fun _ => 0) G (fun a => rad_source sb (mua a) T) vol Ibc) solve ->
  (* node i lies on exactly one wall point, with area vector (area0,0,0) *)
  In b bs -> (forall b', In b' bs -> b_nn b' = b_nn b -> b' = b) -> NoDup bs ->
  b_A b 0%nat = area0 -> b_A b 1%nat = 0 -> b_A b 2%nat = 0 ->
  let ibc := fun irr a => wall_intensity sb (eps a) (tau a) T T (irr a) in
  let st' := iteration 3 bs ibc solve (mkRS (uniform_set 1 (blackbody sb T)) G0 q0 (fun _ => sb * T^4)) in
  rs_irr st' (b_nn b) = 2 / sqrt 3 * (sb * T^4)
  /\ ibc (rs_irr st') (b_nn b) <> blackbody sb T.
Proof.
  intros es bs solve k eps tau sb T mua x vol G0 q0 b area0 Hsb HT Ha He HN HCl HS Hb Hun Hnd A0 A1 A2 ibc st'.
  pose proof PI_RGT_0 as HPI. set (c := blackbody sb T) in *. set (irr0 := fun _ : nat => sb * T^4) in *.
  assert (W : forall a, ibc irr0 a = c).
  { intros a. unfold ibc, c, irr0, wall_intensity, blackbody. field. lra. }
  assert (ST : forall G o Io i, In (o, Io) (uniform_set 1 c) -> solve (ibc irr0) G o Io i = 0).
  { intros G o Io i Ho. unfold uniform_set in Ho. apply in_map_iff in Ho. destruct Ho as (o1 & E & _). injection E as <- <-.
    apply HS. clear i. intros i. apply (C63_equilibrium_is_exact k false 3 _ _ es bs _ c); cbn [r_Ibc r_src r_mus r_mua r_G]; try assumption.
    - reflexivity.
    - intros a. unfold rad_source, c, blackbody. field. lra.
    - right. reflexivity.
    - apply HCl. }
  destruct (loop_still 3 bs (solve (ibc irr0)) (uniform_set 1 c) zero_acc ST) as [S1 S2].
  assert (RI : rs_I st' = fst (ordinate_loop 3 bs (solve (ibc irr0)) (uniform_set 1 c) zero_acc)).
  { unfold st', iteration. cbn [rs_irr rs_I]. destruct (ordinate_loop 3 bs _ _ _). reflexivity. }
  (* only one boundary point at the node *)
  assert (ONE : forall F : bip -> R, lsum (fun b' => if Nat.eqb (b_nn b') (b_nn b) then F b' else 0) bs = F b).
  { intros F. clear - Hb Hun Hnd. revert Hb Hun. induction bs as [|b1 l IH]; intros Hb Hun; [contradiction|].
    inversion Hnd as [|? ? N1 N2]; subst. unfold lsum in *. cbn [map fold_right].
    destruct (Nat.eqb_spec (b_nn b1) (b_nn b)) as [E|E].
    - pose proof (Hun b1 (or_introl eq_refl) E) as ->.
      assert (Z : fold_right Rplus 0 (map (fun b' => if Nat.eqb (b_nn b') (b_nn b) then F b' else 0) l) = 0).
      { assert (NO : forall b', In b' l -> b_nn b' <> b_nn b).
        { intros b' H1 H2. pose proof (Hun b' (or_intror H1) H2) as ->. contradiction. }
        clear - NO. induction l as [|b2 l IH]; [reflexivity|]. cbn [map fold_right].
        destruct (Nat.eqb_spec (b_nn b2) (b_nn b)) as [E|_]; [exfalso; apply (NO b2); [left; reflexivity|assumption]|].
        rewrite IH; [ring|]. intros; apply NO; right; assumption. }
      rewrite Z. ring.
    - destruct Hb as [->|Hb]; [congruence|]. rewrite IH; [ring| | |]; auto.
      intros b' H1 H2. apply Hun; [right; assumption|assumption]. }
  assert (AR : bnd_area 3 bs (b_nn b) = area0).
  { unfold bnd_area. pose proof (ONE (fun b' => sqrt (sumn 3 (fun j => b_A b' j * b_A b' j)))) as Z. unfold lsum in Z. rewrite Z.
    replace (sumn 3 (fun j => b_A b j * b_A b j)) with (area0 * area0).
    - apply sqrt_square. lra.
    - unfold sumn. cbn. rewrite A0, A1, A2. ring. }
  destruct (C64_moments 3 bs ibc solve (mkRS (uniform_set 1 c) G0 q0 irr0)) as (_ & _ & _ & MI). fold st' in MI.
  specialize (MI (b_nn b)). rewrite AR in MI. specialize (MI ltac:(lra)).
  assert (IR : rs_irr st' (b_nn b) * area0 = area0 * c * Rad_Quad_Props.half_flux 1).
  { rewrite MI.
    rewrite (lsum_ext _ (fun oI => od_w (fst oI) * (Rmax 0 (sumn 3 (fun j => od_S (fst oI) j * b_A b j)) * c))).
    - rewrite RI, (S2 0%nat (fun o v => od_w o * (Rmax 0 (sumn 3 (fun j => od_S o j * b_A b j)) * c))).
      unfold uniform_set. unfold lsum at 1. rewrite map_map. unfold Rad_Quad_Props.half_flux.
      change (ME_Model.rsum (map (fun o => Rad_Quad_Model.o_wt o * Rmax 0 (ME_Model.vx (Rad_Quad_Model.o_dir o))) (Rad_Quad_Model.quadrature_set 1)))
        with (lsum (fun o => Rad_Quad_Model.o_wt o * Rmax 0 (ME_Model.vx (Rad_Quad_Model.o_dir o))) (Rad_Quad_Model.quadrature_set 1)).
      rewrite <- lsum_scal. unfold lsum. f_equal. apply map_ext. intros o. cbn [fst ord_of od_w od_S].
      assert (E : sumn 3 (fun j => match j with 0%nat => ME_Model.vx (Rad_Quad_Model.o_dir o) | 1%nat => ME_Model.vy (Rad_Quad_Model.o_dir o)
                 | 2%nat => ME_Model.vz (Rad_Quad_Model.o_dir o) | _ => 0 end * b_A b j) = area0 * ME_Model.vx (Rad_Quad_Model.o_dir o)).
      { unfold sumn. cbn. rewrite A0, A1, A2. ring. }
      rewrite E. clear - Ha. unfold Rmax. destruct (Rle_dec 0 (area0 * ME_Model.vx (Rad_Quad_Model.o_dir o))), (Rle_dec 0 (ME_Model.vx (Rad_Quad_Model.o_dir o))); try nra.
    - intros oI Ho. f_equal.
      rewrite (ONE (fun b' => Rmax 0 (sumn 3 (fun j => od_S (fst oI) j * b_A b' j)) * lsum (fun p => fst p * snd oI (snd p)) (b_N b'))).
      f_equal. rewrite (lsum_ext _ (fun p => c * fst p)).
      + rewrite lsum_scal, HN by assumption. ring.
      + intros p _. rewrite RI in Ho. destruct (S1 oI (snd p) Ho) as (Io & H1 & H2). rewrite H2.
        unfold uniform_set in H1. apply in_map_iff in H1. destruct H1 as (o1 & E & _). injection E as _ <-. ring. }
  destruct Rad_Quad_Props.C62_half_range_flux_refuted as [HF _]. rewrite HF in IR.
  assert (s3 : 0 < sqrt 3) by (apply sqrt_lt_R0; lra).
  assert (R1 : rs_irr st' (b_nn b) = 2 / sqrt 3 * (sb * T^4)).
  { apply (Rmult_eq_reg_r area0); [|lra]. rewrite IR. unfold c, blackbody. field. split; lra. }
  split; [exact R1|]. unfold ibc. rewrite R1. unfold c, wall_intensity, blackbody. intros E.
  assert (P : 0 < sb * T^4) by (apply Rmult_lt_0_compat; [assumption|apply pow_lt; assumption]).
  specialize (He (b_nn b)). set (e1 := eps (b_nn b)) in *. set (t1 := tau (b_nn b)) in *.
  assert (E' : (1 - e1 - t1) * (2 / sqrt 3 - 1) * (sb * T^4) = 0).
  { apply (Rmult_eq_compat_l PI) in E.
    replace (PI * (1 / PI * (t1 * sb * T * T * T * T + e1 * sb * T * T * T * T + (1 - e1 - t1) * (2 / sqrt 3 * (sb * T^4)))))
      with (t1 * sb * T^4 + e1 * sb * T^4 + (1 - e1 - t1) * (2 / sqrt 3 * (sb * T^4))) in E by (field; lra).
    replace (PI * (1 / PI * sb * T * T * T * T)) with (sb * T^4) in E by (field; lra). lra. }
  assert (L : 1 < 2 / sqrt 3).
  { apply Rlt_div_r; [assumption|]. rewrite Rmult_1_l. rewrite <- (sqrt_square 2) by lra. apply sqrt_lt_1; lra. }
  apply Rmult_integral in E'. destruct E' as [E'|E']; [|lra]. apply Rmult_integral in E'. destruct E'; lra.
Qed.

(** ** the convergence norm *)
Lemma sqrt_plus_le a b : 0 <= a -> 0 <= b -> sqrt (a + b) <= sqrt a + sqrt b.
Proof.
  intros Ha Hb. pose proof (sqrt_pos a). pose proof (sqrt_pos b).
  apply Rsqr_incr_0_var; [|lra]. unfold Rsqr. rewrite sqrt_sqrt by lra.
  pose proof (sqrt_sqrt a Ha). pose proof (sqrt_sqrt b Hb). nra.
Qed.
Lemma sq_sum_nonneg (G H : nat -> R) l : 0 <= lsum (fun i => (G i - H i) * (G i - H i)) l.
Proof. unfold lsum. induction l; cbn; [lra|]. pose proof (Rle_0_sqr (G a - H a)) as Q. unfold Rsqr in Q. lra. Qed.
Lemma lsum_app_l {A} (F : A -> R) l l' : lsum F (l ++ l') = lsum F l + lsum F l'.
Proof. unfold lsum. rewrite map_app. induction (map F l); cbn; [ring|]. rewrite IHl0. ring. Qed.

(** never smaller than the norm computed on one rank with the same nodes, zero exactly when no node
    changed: convergence is never declared too early because of the decomposition ... *)
Theorem C64_convergence_norm : forall ranks s G H, 0 < s ->
  sqrt (lsum (fun i => (G i - H i) * (G i - H i)) (concat ranks)) / s <= div_norm ranks s G H
  /\ (div_norm ranks s G H = 0 <-> forall r i, In r ranks -> In i r -> G i = H i).
Proof.
  intros ranks s G H Hs. unfold div_norm.
  set (F := fun nodes => sqrt (fold_right Rplus 0 (map (fun i => (G i - H i) * (G i - H i)) nodes))).
  assert (L : sqrt (lsum (fun i => (G i - H i) * (G i - H i)) (concat ranks)) <= fold_right Rplus 0 (map F ranks)).
  { induction ranks as [|r rs IH]; [unfold lsum; cbn; rewrite sqrt_0; lra|]. cbn [concat map fold_right].
    rewrite lsum_app_l. eapply Rle_trans; [apply sqrt_plus_le; apply sq_sum_nonneg|].
    apply Rplus_le_compat; [right; reflexivity|exact IH]. }
  assert (P : forall rs, 0 <= fold_right Rplus 0 (map F rs)).
  { induction rs; cbn; [lra|]. pose proof (sqrt_pos (fold_right Rplus 0 (map (fun i => (G i - H i) * (G i - H i)) a))). unfold F at 1. lra. }
  split.
  - unfold Rdiv. apply Rmult_le_compat_r; [left; apply Rinv_0_lt_compat; assumption|exact L].
  - split.
    + intros Z r i Hr Hi.
      assert (Z0 : fold_right Rplus 0 (map F ranks) = 0).
      { apply (Rmult_eq_compat_r s) in Z. unfold Rdiv in Z. rewrite Rmult_assoc, Rinv_l, Rmult_1_r, Rmult_0_l in Z by lra. exact Z. }
      assert (FZ : F r = 0).
      { clear - Z0 Hr P. induction ranks as [|r0 rs IH]; [contradiction|]. cbn [map fold_right] in Z0.
        pose proof (P rs). pose proof (sqrt_pos (fold_right Rplus 0 (map (fun i => (G i - H i) * (G i - H i)) r0))) as Q. fold (F r0) in Q.
        destruct Hr as [->|Hr]; [lra|]. apply IH; [assumption|lra]. }
      apply sqrt_eq_0 in FZ; [|apply (sq_sum_nonneg G H r)].
      clear - FZ Hi. induction r as [|a l IH]; [contradiction|]. cbn [map fold_right] in FZ.
      pose proof (sq_sum_nonneg G H l) as Q. unfold lsum in Q. pose proof (Rle_0_sqr (G a - H a)) as Q2. unfold Rsqr in Q2.
      destruct Hi as [->|Hi]; [|apply IH; [assumption|lra]].
      assert (X : (G i - H i) * (G i - H i) = 0) by lra. apply Rmult_integral in X. lra.
    + intros Z. assert (E : fold_right Rplus 0 (map F ranks) = 0); [|rewrite E; unfold Rdiv; ring].
      clear L. induction ranks as [|r rs IH]; [reflexivity|]. cbn [map fold_right]. rewrite IH; [|intros; eapply Z; [right; eassumption|assumption]].
      unfold F. replace (fold_right Rplus 0 (map (fun i => (G i - H i) * (G i - H i)) r)) with 0; [rewrite sqrt_0; ring|].
      assert (Zr : forall i, In i r -> G i = H i) by (intros; eapply Z; [left; reflexivity|assumption]).
      clear - Zr. induction r; [reflexivity|]. cbn. rewrite <- IHr by (intros; apply Zr; right; assumption). rewrite Zr by (left; reflexivity). ring.
Qed.
(** ... but its value depends on how the nodes are spread over the ranks: the same two nodes on one rank
    and on two ranks *)
Theorem C64_norm_independent_of_ranks_refuted : exists G H s, 0 < s /\
  div_norm [[0;1]]%nat s G H <> div_norm [[0];[1]]%nat s G H.
Proof.
  exists (fun _ => 1), (fun _ => 0), 1. split; [lra|]. unfold div_norm. cbn.
  replace ((1 - 0) * (1 - 0) + 0) with 1 by ring. replace ((1 - 0) * (1 - 0) + 1) with 2 by ring. rewrite sqrt_1.
  intros E. assert (X : sqrt 2 = 2) by lra. pose proof (sqrt_sqrt 2 ltac:(lra)). rewrite X in H. lra.
Qed.
