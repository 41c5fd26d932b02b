(** C64: the outer iteration of the radiative transport solver: moments, irradiation, energy,
    equilibrium. *)
From Coq Require Import Reals List Bool Arith Lia Lra Psatz.
From Verif Require Import RUtil Edge_Model Edge_Proofs Edge_Props Elem_Model Rad_Model Rad_Props.
From Verif Require ME_Model Rad_Quad_Model Rad_Quad_Props.
Import ListNotations.
Local Open Scope R_scope.

(** ** what the loop leaves behind *)
Section Loop.
Variables (n : nat) (bs : list bip) (solve : (nat -> R) -> ordn -> (nat -> R) -> nat -> R).

Lemma loop_ords os : forall a, map fst (fst (ordinate_loop n bs solve os a)) = map fst os.
Proof.
  induction os as [|[o Io] os IH]; intros a; [reflexivity|]. cbn [ordinate_loop].
  specialize (IH (accumulate n bs o (fun i => 1 * solve (ac_G a) o Io i + 1 * Io i) a)).
  destruct (ordinate_loop n bs solve os _) as [r a']. cbn [fst map] in *. rewrite IH. reflexivity.
Qed.
Lemma loop_sums os : forall a,
  let p := ordinate_loop n bs solve os a in
  (forall i, ac_G (snd p) i = ac_G a i + lsum (fun oI => od_w (fst oI) * snd oI i) (fst p))
  /\ (forall i j, ac_q (snd p) i j = ac_q a i j + lsum (fun oI => od_w (fst oI) * od_S (fst oI) j * snd oI i) (fst p))
  /\ (forall i, ac_H (snd p) i = ac_H a i + lsum (fun oI => lsum (fun b => irr_bip n (fst oI) (snd oI) b i) bs) (fst p)).
Proof.
  induction os as [|[o Io] os IH]; intros a p; unfold p; clear p.
  - cbn [ordinate_loop fst snd]. unfold lsum; cbn. repeat split; intros; ring.
  - cbn [ordinate_loop]. set (I' := fun i => 1 * solve (ac_G a) o Io i + 1 * Io i).
    specialize (IH (accumulate n bs o I' a)). cbv zeta in IH.
    destruct (ordinate_loop n bs solve os _) as [r a']. cbn [fst snd] in *. destruct IH as (G & Q & H).
    unfold lsum in *. repeat split; intros; rewrite ?G, ?Q, ?H; cbn [map fold_right accumulate ac_G ac_q ac_H fst snd]; ring.
Qed.
(** ordinate number k is solved with the scalar flux of the ordinates before it only *)
Lemma loop_prefix os : forall a k, (k < length os)%nat ->
  exists o Io, nth_error os k = Some (o, Io)
  /\ exists I', nth_error (fst (ordinate_loop n bs solve os a)) k = Some (o, I')
     /\ exists G, (forall i, G i = ac_G a i + lsum (fun oI => od_w (fst oI) * snd oI i) (firstn k (fst (ordinate_loop n bs solve os a))))
        /\ forall i, I' i = Io i + solve G o Io i.
Proof.
  induction os as [|[o Io] os IH]; intros a k Hk; [cbn in Hk; lia|]. cbn [ordinate_loop].
  set (I' := fun i => 1 * solve (ac_G a) o Io i + 1 * Io i).
  destruct k as [|k].
  - destruct (ordinate_loop n bs solve os _) as [r a']. exists o, Io. split; [reflexivity|]. exists I'. split; [reflexivity|].
    exists (ac_G a). split; [|intros i; unfold I'; ring]. intros i. unfold lsum; cbn. ring.
  - cbn [length] in Hk. destruct (IH (accumulate n bs o I' a) k ltac:(lia)) as (o1 & I1 & E & I2 & F & G & HG & HI).
    destruct (ordinate_loop n bs solve os _) as [r a'] eqn:EQ. cbn [fst snd] in *.
    exists o1, I1. split; [exact E|]. exists I2. split; [exact F|]. exists G. split; [|exact HI].
    intros i. rewrite HG. cbn [accumulate ac_G firstn]. unfold lsum. cbn [map fold_right fst snd]. ring.
Qed.
End Loop.

(** ** irradiation *)
Lemma sumsq_zero n (A : vec) : sumn n (fun j => A j * A j) = 0 -> forall j, (j < n)%nat -> A j = 0.
Proof.
  induction n; intros H j Hj; [lia|]. rewrite sumn_S in H.
  assert (P : forall m, 0 <= sumn m (fun j => A j * A j)).
  { induction m; [rewrite sumn_0; lra|]. rewrite sumn_S. pose proof (Rle_0_sqr (A m)) as Q. unfold Rsqr in Q. lra. }
  pose proof (P n) as P1. pose proof (Rle_0_sqr (A n)) as P2. unfold Rsqr in P2.
  assert (Z : A n * A n = 0) by lra. assert (Y : sumn n (fun j => A j * A j) = 0) by lra.
  destruct (Nat.eq_dec j n) as [->|]; [|apply IHn; [assumption|lia]].
  apply Rmult_integral in Z. tauto.
Qed.
(** the contribution of one boundary point is weight x outgoing flow x interpolated intensity *)
Lemma irr_bip_out n o I b i :
  irr_bip n o I b i
  = if Nat.eqb (b_nn b) i then od_w o * (Rmax 0 (sumn n (fun j => od_S o j * b_A b j)) * lsum (fun p => fst p * I (snd p)) (b_N b)) else 0.
Proof.
  unfold irr_bip. cbv zeta. destruct (Nat.eqb _ _); [|reflexivity].
  set (am := sqrt (sumn n (fun j => b_A b j * b_A b j))). set (sa := sumn n (fun j => od_S o j * b_A b j)).
  assert (P0 : 0 <= sumn n (fun j => b_A b j * b_A b j)).
  { clear. induction n; [rewrite sumn_0; lra|]. rewrite sumn_S. pose proof (Rle_0_sqr (b_A b n)) as Q. unfold Rsqr in Q. lra. }
  destruct (Rle_lt_or_eq_dec _ _ P0) as [P|P].
  - assert (A0 : 0 < am) by (apply sqrt_lt_R0; assumption).
    assert (D : sumn n (fun j => b_A b j / am * od_S o j) = sa / am).
    { unfold sa, Rdiv. rewrite (Rmult_comm (sumn n _)), <- sumn_scal. apply sumn_ext. intros; ring. }
    rewrite D, at_bip_lsum. destruct (Rlt_dec 0 (sa / am)) as [L|L].
    + assert (0 < sa) by (replace sa with (sa / am * am) by (field; lra); apply Rmult_lt_0_compat; assumption).
      rewrite Rmax_right by lra. field. lra.
    + assert (sa <= 0). { destruct (Rle_or_lt sa 0); [assumption|]. exfalso. apply L. apply Rdiv_lt_0_compat; assumption. }
      rewrite Rmax_left by lra. ring.
  - assert (Z := sumsq_zero n (b_A b) (eq_sym P)).
    assert (D : sumn n (fun j => b_A b j / am * od_S o j) = 0).
    { rewrite (sumn_ext n _ (fun j => 0 * 0)) by (intros j Hj; rewrite (Z j Hj); unfold Rdiv; ring). rewrite sumn_scal. ring. }
    assert (E : sa = 0).
    { unfold sa. rewrite (sumn_ext n _ (fun j => 0 * 0)) by (intros j Hj; rewrite (Z j Hj); ring). rewrite sumn_scal. ring. }
    rewrite D, E. destruct (Rlt_dec 0 0); [lra|]. rewrite Rmax_left by lra. ring.
Qed.

(** ** the fields after an iteration are the moments of the new intensities *)
Theorem C64_moments : forall n bs ibc solve st,
  let st' := iteration n bs ibc solve st in
  map fst (rs_I st') = map fst (rs_I st)
  /\ (forall i, rs_G st' i = lsum (fun oI => od_w (fst oI) * snd oI i) (rs_I st'))
  /\ (forall i j, rs_q st' i j = lsum (fun oI => od_w (fst oI) * od_S (fst oI) j * snd oI i) (rs_I st'))
  /\ (forall i, bnd_area n bs i <> 0 ->
        rs_irr st' i * bnd_area n bs i
        = lsum (fun oI => od_w (fst oI) * lsum (fun b => if Nat.eqb (b_nn b) i then
             Rmax 0 (sumn n (fun j => od_S (fst oI) j * b_A b j)) * lsum (fun p => fst p * snd oI (snd p)) (b_N b) else 0) bs) (rs_I st')).
Proof.
  intros n bs ibc solve st st'. unfold st', iteration.
  pose proof (loop_ords n bs (solve (ibc (rs_irr st))) (rs_I st) zero_acc) as O.
  destruct (loop_sums n bs (solve (ibc (rs_irr st))) (rs_I st) zero_acc) as (G & Q & H).
  destruct (ordinate_loop n bs (solve (ibc (rs_irr st))) (rs_I st) zero_acc) as [os a].
  cbn [fst snd rs_I rs_G rs_q rs_irr zero_acc ac_G ac_q ac_H] in *.
  split; [assumption|split; [|split]]; intros.
  - rewrite G. ring.
  - rewrite Q. ring.
  - rewrite H. transitivity (lsum (fun oI => lsum (fun b => irr_bip n (fst oI) (snd oI) b i) bs) os); [field; assumption|].
    apply lsum_ext. intros oI _. rewrite <- lsum_scal. apply lsum_ext. intros b _. rewrite irr_bip_out. destruct (Nat.eqb _ _); ring.
Qed.

(** ** what each ordinate is solved with *)
Theorem C64_ordinate_sees_partial_scalar_flux : forall n bs ibc solve st k, (k < length (rs_I st))%nat ->
  let st' := iteration n bs ibc solve st in
  exists o Io I', nth_error (rs_I st) k = Some (o, Io) /\ nth_error (rs_I st') k = Some (o, I')
  /\ exists G, (forall i, G i = lsum (fun oI => od_w (fst oI) * snd oI i) (firstn k (rs_I st')))
     /\ forall i, I' i = Io i + solve (ibc (rs_irr st)) G o Io i.
Proof.
  intros n bs ibc solve st k Hk st'. unfold st', iteration.
  destruct (loop_prefix n bs (solve (ibc (rs_irr st))) (rs_I st) zero_acc k Hk) as (o & Io & E & I' & F & G & HG & HI).
  destruct (ordinate_loop n bs (solve (ibc (rs_irr st))) (rs_I st) zero_acc) as [os a]. cbn [fst rs_I] in *.
  exists o, Io, I'. split; [assumption|split; [assumption|]]. exists G. split; [|assumption].
  intros i. rewrite HG. cbn [zero_acc ac_G]. ring.
Qed.

(** hence scattering equilibrium is not a fixed point: the first ordinate sees no incoming radiation, and
    its residual in the exact equilibrium state is minus the whole in-scattering *)
Theorem C64_scattering_equilibrium_refuted : forall n bs ibc solve st f es nodes o Io rest c i,
  rs_I st = (o, Io) :: rest ->
  (* the solver solves the assembled system of the ordinate *)
  covers nodes es -> bips_on nodes bs ->
  (forall Ibc G J k, In k nodes ->
     lsum (fun j => rad_lhs Upwind n (od_S o) (mkRF (r_x f) (r_mua f) (r_mus f) G (r_src f) (r_vol f) Ibc) es bs J k j * solve Ibc G o J j) nodes
     = rad_rhs Upwind true n (od_S o) (mkRF (r_x f) (r_mua f) (r_mus f) G (r_src f) (r_vol f) Ibc) es bs J k) ->
  (* equilibrium with the full scalar flux 4 pi c *)
  (forall a, Io a = c) -> (forall a, ibc (rs_irr st) a = c) -> (forall b, In b bs -> lsum fst (b_N b) = 1) ->
  (forall a, r_src f a + r_mus f a * (4 * PI * c) / (4 * PI) = (r_mua f a + r_mus f a) * c) ->
  closed_cv es bs i ->
  In i nodes -> 0 < r_mus f i -> 0 < r_vol f i -> 0 < c ->
  let st' := iteration n bs ibc solve st in
  exists I' r', rs_I st' = (o, I') :: r' /\ exists j, In j nodes /\ I' j <> c.
Proof.
  intros n bs ibc solve st f es nodes o Io rest c i HR HC HB HS HI HW HN HQ HCl Hi Hm Hv Hc st'.
  pose proof PI_RGT_0 as HPI. unfold st', iteration. rewrite HR. cbn [ordinate_loop].
  set (I' := fun i => 1 * solve (ibc (rs_irr st)) (ac_G zero_acc) o Io i + 1 * Io i).
  destruct (ordinate_loop n bs (solve (ibc (rs_irr st))) rest _) as [r a]. cbn [rs_I]. exists I', r. split; [reflexivity|].
  set (g := fun G => mkRF (r_x f) (r_mua f) (r_mus f) G (r_src f) (r_vol f) (ibc (rs_irr st))).
  assert (E0 : rad_rhs Upwind true n (od_S o) (g (fun _ => 4 * PI * c)) es bs Io i = 0).
  { apply (C63_equilibrium_is_exact Upwind true n (od_S o) (g (fun _ => 4 * PI * c)) es bs Io c); try assumption; try (left; reflexivity). }
  assert (E1 : rad_rhs Upwind true n (od_S o) (g (fun _ => 0)) es bs Io i = - r_mus f i * c * r_vol f i).
  { rewrite rad_rhs_sums in *. unfold absorbed in *. cbn [g r_vol r_mua r_mus r_src r_G] in *.
    change (lsum (fun e => add_rhs (edge_op Upwind n (od_S o) (g (fun _ : nat => 0)) Io e) e i) es)
      with (lsum (fun e => add_rhs (edge_op Upwind n (od_S o) (g (fun _ : nat => 4*PI*c)) Io e) e i) es).
    change (lsum (fun b => if (b_nn b =? i)%nat then - wall_out n (od_S o) (g (fun _ : nat => 0)) Io b else 0) bs)
      with (lsum (fun b => if (b_nn b =? i)%nat then - wall_out n (od_S o) (g (fun _ : nat => 4*PI*c)) Io b else 0) bs).
    assert (X : r_mus f i * (4 * PI * c) / (4 * PI) = r_mus f i * c) by (field; lra). rewrite X in E0.
    unfold Rdiv. rewrite Rmult_0_r, Rmult_0_l. nra. }
  pose proof (HS (ibc (rs_irr st)) (fun _ => 0) Io i Hi) as Z. fold (g (fun _ => 0)) in Z. rewrite E1 in Z.
  assert (NZ : 0 < r_mus f i * c * r_vol f i) by (apply Rmult_lt_0_compat; [apply Rmult_lt_0_compat|]; assumption).
  (* some increment is non-zero *)
  assert (D : exists j, In j nodes /\ solve (ibc (rs_irr st)) (fun _ => 0) o Io j <> 0).
  { assert (DD : forall l, (exists j, In j l /\ solve (ibc (rs_irr st)) (fun _ => 0) o Io j <> 0)
        \/ (forall j, In j l -> solve (ibc (rs_irr st)) (fun _ => 0) o Io j = 0)).
    { induction l as [|x l IH]; [right; intros j []|]. destruct (Req_dec (solve (ibc (rs_irr st)) (fun _ => 0) o Io x) 0) as [X|X].
      - destruct IH as [(j & J1 & J2)|IH]; [left; exists j; split; [right; assumption|assumption]|].
        right. intros j [<-|J]; [assumption|apply IH; assumption].
      - left. exists x. split; [left; reflexivity|assumption]. }
    destruct (DD nodes) as [X|X]; [assumption|exfalso].
    rewrite (lsum_ext _ (fun j => 0 * 0)) in Z.
    - rewrite lsum_scal in Z. lra.
    - intros j Hj. rewrite (X j Hj). ring. }
  destruct D as (j & J1 & J2). exists j. split; [assumption|]. unfold I', zero_acc; cbn [ac_G]. rewrite HI. intros X. apply J2. lra.
Qed.

(** ** wall intensity *)
Theorem C64_wall_intensity : forall sb eps tau T envT irr,
  0 <= sb -> 0 <= eps -> 0 <= tau -> eps + tau <= 1 ->
  (0 <= irr -> 0 <= wall_intensity sb eps tau T envT irr)
  /\ (forall lo hi, lo <= sb * T^4 <= hi -> lo <= sb * envT^4 <= hi -> lo <= irr <= hi ->
        lo / PI <= wall_intensity sb eps tau T envT irr <= hi / PI)
  /\ (envT = T -> irr = sb * T^4 -> wall_intensity sb eps tau T envT irr = blackbody sb T)
  (* energy leaving a wall at normal incidence: emitted, transmitted and reflected *)
  /\ PI * wall_intensity sb eps tau T envT irr = eps * (sb * T^4) + tau * (sb * envT^4) + (1 - eps - tau) * irr.
Proof.
  intros sb eps tau T envT irr Hs He Ht Het. pose proof PI_RGT_0 as HPI.
  assert (E : PI * wall_intensity sb eps tau T envT irr = eps * (sb * T^4) + tau * (sb * envT^4) + (1 - eps - tau) * irr).
  { unfold wall_intensity. field. lra. }
  assert (F : wall_intensity sb eps tau T envT irr = (eps * (sb * T^4) + tau * (sb * envT^4) + (1 - eps - tau) * irr) / PI).
  { rewrite <- E. field. lra. }
  assert (P1 : 0 <= T^4) by (replace (T^4) with ((T^2)^2) by ring; apply pow2_ge_0).
  assert (P2 : 0 <= envT^4) by (replace (envT^4) with ((envT^2)^2) by ring; apply pow2_ge_0).
  split; [|split; [|split]].
  - intros Hi. rewrite F. apply Rle_div_r; [assumption|]. rewrite Rmult_0_l.
    assert (0 <= eps * (sb * T^4)) by (apply Rmult_le_pos; [assumption|apply Rmult_le_pos; assumption]).
    assert (0 <= tau * (sb * envT^4)) by (apply Rmult_le_pos; [assumption|apply Rmult_le_pos; assumption]).
    assert (0 <= (1 - eps - tau) * irr) by (apply Rmult_le_pos; lra). lra.
  - intros lo hi [a1 a2] [b1 b2] [c1 c2]. rewrite F.
    set (x := sb * T^4) in *. set (y := sb * envT^4) in *. unfold Rdiv.
    assert (0 < / PI) by (apply Rinv_0_lt_compat; assumption).
    split; apply Rmult_le_compat_r; try lra; nra.
  - intros -> ->. unfold wall_intensity, blackbody. field. lra.
  - exact E.
Qed.

(** ** energy over all directions *)
(** with no scattering, if every ordinate's equations are satisfied then the divergence of the radiative
    heat flux integrated over the domain is the net radiative power leaving through the boundary *)
Theorem C64_radiative_energy_balance : forall k n es bs nodes os sb T mua x vol Ibc gam,
  covers nodes es -> bips_on nodes bs ->
  lsum (fun oI : ordn * (nat -> R) => od_w (fst oI)) os = 4 * PI ->
  (forall oI i, In oI os -> In i nodes ->
     rad_rhs k false n (od_S (fst oI)) (mkRF x mua (fun _ => 0) gam (fun a => rad_source sb (mua a) (T a)) vol Ibc) es bs (snd oI) i = 0) ->
  lsum (fun i => vol i * div_qr sb (mua i) (T i) (lsum (fun oI => od_w (fst oI) * snd oI i) os)) nodes
  = lsum (fun oI => od_w (fst oI) * lsum (wall_out n (od_S (fst oI))
        (mkRF x mua (fun _ => 0) gam (fun a => rad_source sb (mua a) (T a)) vol Ibc) (snd oI)) bs) os.
Proof.
  intros k n es bs nodes os sb T mua x vol Ibc gam HC HB HW HR. pose proof PI_RGT_0 as HPI.
  set (f := mkRF x mua (fun _ => 0) gam (fun a => rad_source sb (mua a) (T a)) vol Ibc) in *.
  rewrite (lsum_ext (fun oI => od_w (fst oI) * lsum (wall_out n (od_S (fst oI)) f (snd oI)) bs)
    (fun oI => lsum (fun i => od_w (fst oI) * - absorbed false f (snd oI) i) nodes) os).
  - rewrite lsum_comm. apply lsum_ext. intros i Hi. unfold absorbed. cbn [f r_vol r_mua r_mus r_src].
    rewrite (lsum_ext (fun oI => od_w (fst oI) * - (vol i * ((mua i + 0) * snd oI i - rad_source sb (mua i) (T i) - 0)))
      (fun oI => vol i * (rad_source sb (mua i) (T i) * od_w (fst oI) + - mua i * (od_w (fst oI) * snd oI i)))) by (intros; ring).
    rewrite lsum_scal, lsum_plus, !lsum_scal, HW. unfold div_qr, rad_source. field. lra.
  - intros oI Ho. rewrite lsum_scal. f_equal.
    pose proof (C63_energy_balance k false n (od_S (fst oI)) f es bs (snd oI) nodes HC HB) as Z.
    rewrite (lsum_ext _ (fun _ => 0 * 0)) in Z by (intros i Hi; rewrite HR by assumption; ring).
    rewrite lsum_scal in Z. 
    rewrite (lsum_ext (fun i => - absorbed false f (snd oI) i) (fun i => -1 * absorbed false f (snd oI) i)) by (intros; ring).
    rewrite lsum_scal. lra.
Qed.

(** the linearisation handed to the energy equation is the temperature derivative of the source *)
Theorem C64_source_linearisation : forall sb mua G T,
  derivable_pt_lim (fun t => div_qr sb mua t G) T (div_qr_lin sb mua T).
Proof.
  intros sb mua G T. unfold div_qr, div_qr_lin.
  apply (derivable_pt_lim_ext (fun t => mua * (4 * sb) * t^4 - mua * G)); [intros; ring|].
  replace (16 * sb * mua * T * T * T) with (mua * (4 * sb) * (INR 4 * T^3) - 0) by (cbn [INR]; ring).
  apply derivable_pt_lim_minus; [|apply derivable_pt_lim_const].
  apply derivable_pt_lim_scal. apply (derivable_pt_lim_pow T 4).
Qed.
