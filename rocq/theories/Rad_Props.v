(** C63: the discrete radiative transport equation of one ordinate (edge-based schemes). *)
From Coq Require Import Reals List Bool Arith Lia Lra Psatz.
From Verif Require Import RUtil Edge_Model Edge_Proofs Edge_Props Elem_Model Rad_Model.
Import ListNotations.
Local Open Scope R_scope.

(** ** vocabulary *)
(** all boundary points and their interpolation stencils lie on the listed nodes *)
Definition bips_on (nodes : list nat) (bs : list bip) : Prop :=
  forall b, In b bs -> In (b_nn b) nodes /\ forall p, In p (b_N b) -> In (snd p) nodes.
(** energy per solid angle leaving through a boundary point: the intensity of the medium where the
    ordinate points out of the domain, the wall's intensity where it points in *)
Definition wall_out (n : nat) (S : vec) (f : rfields) (I : nat -> R) (b : bip) : R :=
  let a := sumn n (fun j => S j * b_A b j) in
  a * (if Rlt_dec 0 a then lsum (fun p => fst p * I (snd p)) (b_N b)
       else lsum (fun p => fst p * r_Ibc f (snd p)) (b_N b)).
(** net absorption per solid angle in a control volume *)
Definition absorbed (scat : bool) (f : rfields) (I : nat -> R) (i : nat) : R :=
  r_vol f i * ((r_mua f i + r_mus f i) * I i - r_src f i - (if scat then r_mus f i * r_G f i / (4*PI) else 0)).

Lemma at_bip_lsum b q : at_bip b q = lsum (fun p => fst p * q (snd p)) (b_N b).
Proof.
  unfold at_bip.
  assert (E : forall l a, fold_left (fun a p => a + fst p * q (snd p)) l a = a + lsum (fun p => fst p * q (snd p)) l).
  { induction l as [|p l IH]; intros a; unfold lsum in *; cbn; [ring|]. rewrite IH. ring. }
  rewrite E. ring.
Qed.
Lemma wall_rhs_out n S f I b i : wall_rhs n S f I b i = if Nat.eqb (b_nn b) i then - wall_out n S f I b else 0.
Proof.
  unfold wall_rhs, wall_out, sjaj. rewrite !at_bip_lsum. destruct (Nat.eqb _ _); [|reflexivity].
  cbv zeta. destruct (Rlt_dec 0 _); ring.
Qed.
Lemma node_rhs_abs scat f I i : node_rhs scat f I i = - absorbed scat f I i.
Proof. unfold node_rhs, absorbed. pose proof PI_RGT_0. destruct scat; field; lra. Qed.

Lemma rad_edge_pair k n S f I e : sr0 (edge_op k n S f I e) + sr1 (edge_op k n S f I e) = 0
  /\ s00 (edge_op k n S f I e) + s10 (edge_op k n S f I e) = 0 /\ s01 (edge_op k n S f I e) + s11 (edge_op k n S f I e) = 0.
Proof. destruct k; cbn [edge_op rad_edge_sucv rad_edge_upwind sr0 sr1 s00 s10 s01 s11]; repeat split; ring. Qed.

Lemma rad_rhs_sums k scat n S f es bs I i :
  rad_rhs k scat n S f es bs I i
  = lsum (fun e => add_rhs (edge_op k n S f I e) e i) es
    + lsum (fun b => if Nat.eqb (b_nn b) i then - wall_out n S f I b else 0) bs - absorbed scat f I i.
Proof.
  unfold rad_rhs. rewrite rhs_lsum, node_rhs_abs. unfold lsum.
  rewrite (map_ext (fun b => wall_rhs n S f I b i) _ (fun b => wall_rhs_out n S f I b i)). ring.
Qed.

(** ** energy: what the whole right-hand side adds up to *)
Theorem C63_energy_balance : forall k scat n S f es bs I nodes,
  covers nodes es -> bips_on nodes bs ->
  lsum (rad_rhs k scat n S f es bs I) nodes
  = - lsum (wall_out n S f I) bs - lsum (absorbed scat f I) nodes.
Proof.
  intros k scat n S f es bs I nodes HC HB.
  rewrite (lsum_ext _ _ nodes (fun i _ => rad_rhs_sums k scat n S f es bs I i)).
  rewrite (lsum_ext _ (fun i => (assembled_rhs (edge_op k n S f I) es i
     + lsum (fun b => if Nat.eqb (b_nn b) i then - wall_out n S f I b else 0) bs) + -1 * absorbed scat f I i))
    by (intros; rewrite rhs_lsum; ring).
  rewrite !lsum_plus, lsum_scal. rewrite assembled_conservative by (try assumption; intros; apply rad_edge_pair).
  rewrite lsum_comm.
  rewrite (lsum_ext _ (fun b => -1 * wall_out n S f I b) bs).
  - rewrite lsum_scal. ring.
  - intros b Hb. rewrite lsum_indicator; [ring| apply HC | apply (HB b Hb)].
Qed.

(** ** the matrix is the exact sensitivity *)
Lemma matvec_wall n S b nodes d i : NoDup nodes -> (forall p, In p (b_N b) -> In (snd p) nodes) ->
  lsum (fun j => wall_lhs n S b i j * d j) nodes
  = if Nat.eqb (b_nn b) i then if Rlt_dec 0 (sjaj n S (b_A b)) then sjaj n S (b_A b) * lsum (fun p => fst p * d (snd p)) (b_N b) else 0 else 0.
Proof.
  intros ND HN. unfold wall_lhs. destruct (Nat.eqb (b_nn b) i); [|apply lsum_zero; intros; ring].
  cbv zeta. destruct (Rlt_dec 0 _); [|apply lsum_zero; intros; ring].
  set (a := sjaj n S (b_A b)) in *.
  assert (E : forall l acc j, fold_left (fun acc p => acc + (if Nat.eqb (snd p) j then a * fst p else 0)) l acc
     = acc + lsum (fun p : R * nat => if Nat.eqb (snd p) j then a * fst p else 0) l).
  { induction l as [|p l IH]; intros acc j; unfold lsum in *; cbn; [ring|]. rewrite IH. ring. }
  rewrite (lsum_ext _ (fun j => lsum (fun p => (if Nat.eqb (snd p) j then a * fst p * d (snd p) else 0)) (b_N b))).
  - rewrite lsum_comm. rewrite (lsum_ext _ (fun p => a * (fst p * d (snd p)))).
    + apply lsum_scal.
    + intros p Hp. rewrite lsum_indicator; [ring|assumption|apply HN; assumption].
  - intros j _. rewrite E, Rplus_0_l, Rmult_comm, <- lsum_scal. apply lsum_ext. intros p _.
    destruct (Nat.eqb_spec (snd p) j) as [<-|]; ring.
Qed.

Lemma sucv_residual_plus n S f I d e :
  sucv_residual n S f (fun a => I a + d a) e = sucv_residual n S f I e
   + (ext_ip f e * (1/2) * (d (eL e) + d (eR e)) + (1 / e_axdx n (r_x f) e) * sjaj n S (eA e) * (d (eR e) - d (eL e))).
Proof.
  unfold sucv_residual, sjaj. cbv zeta.
  assert (E : forall u v, sumn n (fun j => S j * (u - v) * eA e j * (1 / e_axdx n (r_x f) e))
     = (1 / e_axdx n (r_x f) e) * (u - v) * sumn n (fun j => S j * eA e j)).
  { intros u v. rewrite <- sumn_scal. apply sumn_ext. intros; ring. }
  rewrite !E. ring.
Qed.

Lemma edge_newton k n S f I d e :
  sr0 (edge_op k n S f (fun a => I a + d a) e) = sr0 (edge_op k n S f I e)
     - (s00 (edge_op k n S f I e) * d (eL e) + s01 (edge_op k n S f I e) * d (eR e))
  /\ sr1 (edge_op k n S f (fun a => I a + d a) e) = sr1 (edge_op k n S f I e)
     - (s10 (edge_op k n S f I e) * d (eL e) + s11 (edge_op k n S f I e) * d (eR e)).
Proof.
  destruct k; cbn [edge_op rad_edge_sucv rad_edge_upwind sr0 sr1 s00 s10 s01 s11].
  - rewrite sucv_residual_plus. split; ring.
  - unfold Rabs. destruct (Rlt_dec 0 (sjaj n S (eA e))), (Rcase_abs (sjaj n S (eA e))); try lra;
      split; try field.
    + replace (sjaj n S (eA e)) with 0 by lra. ring.
    + replace (sjaj n S (eA e)) with 0 by lra. ring.
Qed.

Theorem C63_newton_exact : forall k scat n S f es bs I d nodes i,
  covers nodes es -> bips_on nodes bs -> In i nodes ->
  rad_rhs k scat n S f es bs (fun a => I a + d a) i
  = rad_rhs k scat n S f es bs I i - lsum (fun j => rad_lhs k n S f es bs I i j * d j) nodes.
Proof.
  intros k scat n S f es bs I d nodes i HC HB Hi.
  assert (M : lsum (fun j => rad_lhs k n S f es bs I i j * d j) nodes
     = lsum (fun j => assembled_lhs (edge_op k n S f I) es i j * d j) nodes
       + lsum (fun b => lsum (fun j => wall_lhs n S b i j * d j) nodes) bs + node_lhs f i * d i).
  { unfold rad_lhs.
    rewrite (lsum_ext _ (fun j => (assembled_lhs (edge_op k n S f I) es i j * d j
       + lsum (fun b => wall_lhs n S b i j * d j) bs) + (if Nat.eqb i j then node_lhs f i * d i else 0))).
    - rewrite !lsum_plus, lsum_comm, lsum_indicator; [reflexivity|apply HC|assumption].
    - intros j _.
      assert (E : lsum (fun b => wall_lhs n S b i j * d j) bs = fold_right Rplus 0 (map (fun b => wall_lhs n S b i j) bs) * d j).
      { rewrite Rmult_comm. change (fold_right Rplus 0 (map (fun b => wall_lhs n S b i j) bs)) with (lsum (fun b => wall_lhs n S b i j) bs).
        rewrite <- lsum_scal. apply lsum_ext; intros; ring. }
      rewrite E. destruct (Nat.eqb_spec i j) as [<-|]; ring. }
  rewrite M, (assembled_matvec _ _ _ _ _ HC), !rad_rhs_sums.
  assert (E1 : lsum (fun e => add_rhs (edge_op k n S f (fun a => I a + d a) e) e i) es
    = lsum (fun e => add_rhs (edge_op k n S f I e) e i) es
      + -1 * lsum (fun e => (if Nat.eqb (eL e) i then s00 (edge_op k n S f I e) * d (eL e) + s01 (edge_op k n S f I e) * d (eR e) else 0)
                 + (if Nat.eqb (eR e) i then s10 (edge_op k n S f I e) * d (eL e) + s11 (edge_op k n S f I e) * d (eR e) else 0)) es).
  { rewrite <- lsum_scal, <- lsum_plus. apply lsum_ext. intros e _. unfold add_rhs.
    destruct (edge_newton k n S f I d e) as [-> ->]. destruct (Nat.eqb (eL e) i), (Nat.eqb (eR e) i); ring. }
  assert (E2 : lsum (fun b => if Nat.eqb (b_nn b) i then - wall_out n S f (fun a => I a + d a) b else 0) bs
    = lsum (fun b => if Nat.eqb (b_nn b) i then - wall_out n S f I b else 0) bs
      + -1 * lsum (fun b => lsum (fun j => wall_lhs n S b i j * d j) nodes) bs).
  { rewrite <- lsum_scal, <- lsum_plus. apply lsum_ext. intros b Hb.
    rewrite matvec_wall by (try apply HC; apply (HB b Hb)).
    destruct (Nat.eqb (b_nn b) i); [|ring]. unfold wall_out, sjaj. cbv zeta. destruct (Rlt_dec 0 _); [|ring].
    rewrite (lsum_ext (fun p => fst p * (I (snd p) + d (snd p))) (fun p => fst p * I (snd p) + fst p * d (snd p))) by (intros; ring).
    rewrite lsum_plus. ring. }
  rewrite E1, E2. unfold absorbed, node_lhs. ring.
Qed.

(** so solving the assembled system makes the right-hand side vanish *)
Theorem C63_solve_gives_zero_residual : forall k scat n S f es bs I d nodes,
  covers nodes es -> bips_on nodes bs ->
  (forall i, In i nodes -> lsum (fun j => rad_lhs k n S f es bs I i j * d j) nodes = rad_rhs k scat n S f es bs I i) ->
  forall i, In i nodes -> rad_rhs k scat n S f es bs (fun a => I a + d a) i = 0.
Proof. intros. rewrite (C63_newton_exact _ _ _ _ _ _ _ _ _ nodes) by assumption. rewrite H1 by assumption. ring. Qed.

(** ** uniform intensity: exact on closed control volumes *)
Lemma closed_S n S es bs i : closed_cv es bs i ->
  lsum (fun e => (if Nat.eqb (eL e) i then sjaj n S (eA e) else 0) - (if Nat.eqb (eR e) i then sjaj n S (eA e) else 0)) es
  + lsum (fun b => if Nat.eqb (b_nn b) i then sjaj n S (b_A b) else 0) bs = 0.
Proof.
  intros H.
  transitivity (sumn n (fun j => S j * (lsum (fun e => (if Nat.eqb (eL e) i then eA e j else 0) - (if Nat.eqb (eR e) i then eA e j else 0)) es
     + lsum (fun b => if Nat.eqb (b_nn b) i then b_A b j else 0) bs))).
  - assert (SW : forall {A} (F : nat -> A -> R) l m, sumn m (fun j => lsum (F j) l) = lsum (fun x => sumn m (fun j => F j x)) l).
    { intros A F l m. induction m; [symmetry; apply lsum_zero; reflexivity|]. rewrite sumn_S, IHm, <- lsum_plus.
      apply lsum_ext. intros. rewrite sumn_S. reflexivity. }
    rewrite (sumn_ext n _ (fun j => lsum (fun e => S j * ((if Nat.eqb (eL e) i then eA e j else 0) - (if Nat.eqb (eR e) i then eA e j else 0))) es
       + lsum (fun b => S j * (if Nat.eqb (b_nn b) i then b_A b j else 0)) bs)) by (intros; rewrite !lsum_scal; ring).
    rewrite sumn_plus, !SW. f_equal; apply lsum_ext.
    + intros e _. unfold sjaj. destruct (Nat.eqb (eL e) i), (Nat.eqb (eR e) i).
      * rewrite (sumn_ext n (fun j => S j * (eA e j - eA e j)) (fun j => 0 * S j)) by (intros; ring). rewrite sumn_scal. ring.
      * rewrite (sumn_ext n (fun j => S j * (eA e j - 0)) (fun j => S j * eA e j)) by (intros; ring). ring.
      * rewrite (sumn_ext n (fun j => S j * (0 - eA e j)) (fun j => -1 * (S j * eA e j))) by (intros; ring). rewrite sumn_scal. ring.
      * rewrite (sumn_ext n _ (fun j => 0 * S j)) by (intros; ring). rewrite sumn_scal. ring.
    + intros b _. unfold sjaj. destruct (Nat.eqb (b_nn b) i); [reflexivity|].
      rewrite (sumn_ext n _ (fun j => 0 * S j)) by (intros; ring). rewrite sumn_scal. ring.
  - rewrite (sumn_ext n _ (fun j => 0 * S j)).
    + rewrite sumn_scal. ring.
    + intros j _. rewrite (H j). ring.
Qed.

(** radiative equilibrium: uniform intensity equal to the wall intensity, the source balancing
    extinction.  Edge SUCV and upwind, any ordinate, any mesh with closed control volumes. *)
Theorem C63_equilibrium_is_exact : forall k scat n S f es bs I c i,
  (forall a, I a = c) -> (forall a, r_Ibc f a = c) ->
  (forall b, In b bs -> lsum fst (b_N b) = 1) ->
  (forall a, r_src f a + r_mus f a * r_G f a / (4*PI) = (r_mua f a + r_mus f a) * c) ->
  (scat = true \/ forall a, r_mus f a = 0) ->
  closed_cv es bs i ->
  rad_rhs k scat n S f es bs I i = 0.
Proof.
  intros k scat n S f es bs I c i HI HB HN HQ HS HC. pose proof PI_RGT_0 as HPI. rewrite rad_rhs_sums.
  assert (A : absorbed scat f I i = 0).
  { unfold absorbed. rewrite HI, <- (HQ i). destruct HS as [-> |HS]; [ring|]. rewrite HS. destruct scat; field; lra. }
  assert (R0 : forall e, sucv_residual n S f I e = 0).
  { intros e. unfold sucv_residual, ext_ip. cbv zeta. rewrite !HI.
    rewrite (sumn_ext n _ (fun j => 0 * S j)) by (intros; ring). rewrite sumn_scal.
    pose proof (HQ (eL e)) as QL. pose proof (HQ (eR e)) as QR.
    replace ((1/2)*(r_mus f (eL e) * r_G f (eL e) + r_mus f (eR e) * r_G f (eR e))/4*(1/PI))
      with ((1/2)*(r_mus f (eL e) * r_G f (eL e)/(4*PI) + r_mus f (eR e) * r_G f (eR e)/(4*PI))) by (field; lra).
    lra. }
  assert (EE : forall e, add_rhs (edge_op k n S f I e) e i
     = - c * ((if Nat.eqb (eL e) i then sjaj n S (eA e) else 0) - (if Nat.eqb (eR e) i then sjaj n S (eA e) else 0))).
  { intros e. unfold add_rhs. destruct k; cbn [edge_op rad_edge_sucv rad_edge_upwind sr0 sr1].
    - rewrite R0, !HI. destruct (Nat.eqb (eL e) i), (Nat.eqb (eR e) i); field.
    - rewrite !HI. destruct (Rlt_dec 0 _), (Nat.eqb (eL e) i), (Nat.eqb (eR e) i); ring. }
  rewrite (lsum_ext _ _ es (fun e _ => EE e)), lsum_scal.
  rewrite (lsum_ext _ (fun b => - c * (if Nat.eqb (b_nn b) i then sjaj n S (b_A b) else 0)) bs).
  - rewrite lsum_scal, A. pose proof (closed_S n S es bs i HC) as Z.
    rewrite <- (Rmult_plus_distr_l (-c)), Z. ring.
  - intros b Hb. destruct (Nat.eqb (b_nn b) i); [|ring]. unfold wall_out. cbv zeta.
    rewrite (lsum_ext (fun p => fst p * I (snd p)) (fun p => c * fst p)) by (intros; rewrite HI; ring).
    rewrite (lsum_ext (fun p => fst p * r_Ibc f (snd p)) (fun p => c * fst p)) by (intros; rewrite HB; ring).
    rewrite !lsum_scal, HN by assumption. unfold sjaj. destruct (Rlt_dec 0 _); ring.
Qed.

(** ** bounds for the upwind scheme *)
(** the edge-based realm uses shifted face points: the boundary stencil is the nearest node *)
Definition lumped (bs : list bip) : Prop := forall b, In b bs -> b_N b = [(1, b_nn b)].

Lemma upwind_relative n S f es bs I scat i : lumped bs -> closed_cv es bs i ->
  rad_rhs Upwind scat n S f es bs I i
  = lsum (fun e => (if Nat.eqb (eL e) i then Rmax 0 (- sjaj n S (eA e)) * (I (eR e) - I i) else 0)
                 + (if Nat.eqb (eR e) i then Rmax 0 (sjaj n S (eA e)) * (I (eL e) - I i) else 0)) es
    + lsum (fun b => if Nat.eqb (b_nn b) i then Rmax 0 (- sjaj n S (b_A b)) * (r_Ibc f i - I i) else 0) bs
    - absorbed scat f I i.
Proof.
  intros HL HC. rewrite rad_rhs_sums. pose proof (closed_S n S es bs i HC) as Z.
  assert (E1 : lsum (fun e => add_rhs (edge_op Upwind n S f I e) e i) es
     = lsum (fun e => (if Nat.eqb (eL e) i then Rmax 0 (- sjaj n S (eA e)) * (I (eR e) - I i) else 0)
                 + (if Nat.eqb (eR e) i then Rmax 0 (sjaj n S (eA e)) * (I (eL e) - I i) else 0)) es
       + - I i * lsum (fun e => (if Nat.eqb (eL e) i then sjaj n S (eA e) else 0) - (if Nat.eqb (eR e) i then sjaj n S (eA e) else 0)) es).
  { rewrite <- lsum_scal, <- lsum_plus. apply lsum_ext. intros e _. unfold add_rhs.
    cbn [edge_op rad_edge_upwind sr0 sr1]. set (s := sjaj n S (eA e)).
    destruct (Rlt_dec 0 s).
    - rewrite (Rmax_left 0 (-s)), (Rmax_right 0 s) by lra.
      destruct (Nat.eqb_spec (eL e) i) as [E0|], (Nat.eqb_spec (eR e) i) as [E|]; try rewrite E; try rewrite E0; ring.
    - rewrite (Rmax_right 0 (-s)), (Rmax_left 0 s) by lra.
      destruct (Nat.eqb_spec (eL e) i) as [E0|], (Nat.eqb_spec (eR e) i) as [E|]; try rewrite E; try rewrite E0; ring. }
  assert (E2 : lsum (fun b => if Nat.eqb (b_nn b) i then - wall_out n S f I b else 0) bs
     = lsum (fun b => if Nat.eqb (b_nn b) i then Rmax 0 (- sjaj n S (b_A b)) * (r_Ibc f i - I i) else 0) bs
       + - I i * lsum (fun b => if Nat.eqb (b_nn b) i then sjaj n S (b_A b) else 0) bs).
  { rewrite <- lsum_scal, <- lsum_plus. apply lsum_ext. intros b Hb.
    destruct (Nat.eqb_spec (b_nn b) i) as [<-|]; [|ring].
    unfold wall_out. rewrite (HL b Hb). unfold lsum. cbn [map fold_right fst snd]. fold (sjaj n S (b_A b)).
    set (s := sjaj n S (b_A b)). cbv zeta. destruct (Rlt_dec 0 s).
    - rewrite (Rmax_left 0 (-s)) by lra. ring.
    - rewrite (Rmax_right 0 (-s)) by lra. ring. }
  rewrite E1, E2.
  set (A := lsum (fun e => (if Nat.eqb (eL e) i then sjaj n S (eA e) else 0) - (if Nat.eqb (eR e) i then sjaj n S (eA e) else 0)) es) in *.
  set (B := lsum (fun b => if Nat.eqb (b_nn b) i then sjaj n S (b_A b) else 0) bs) in *.
  replace B with (- A) by lra. ring.
Qed.

Lemma list_argmax (I : nat -> R) (l : list nat) : l <> [] -> exists m, In m l /\ forall k, In k l -> I k <= I m.
Proof.
  induction l as [|a l IH]; [congruence|]. intros _. destruct l as [|b l'].
  - exists a. split; [left; reflexivity|]. intros k [<-|[]]; lra.
  - destruct IH as (m & Hm & Hk); [discriminate|]. destruct (Rle_or_lt (I m) (I a)).
    + exists a. split; [left; reflexivity|]. intros k [<-|H1]; [lra|]. specialize (Hk k H1); lra.
    + exists m. split; [right; assumption|]. intros k [<-|H1]; [lra|]. apply Hk; assumption.
Qed.
Lemma lsum_nonpos {A} (F : A -> R) l : (forall x, In x l -> F x <= 0) -> lsum F l <= 0.
Proof. unfold lsum. induction l; intros H; cbn; [lra|]. pose proof (H a (or_introl eq_refl)). assert (fold_right Rplus 0 (map F l) <= 0) by (apply IHl; intros; apply H; right; assumption). lra. Qed.

(** the source a control volume sees *)
Definition emission (scat : bool) (f : rfields) (i : nat) : R :=
  r_src f i + (if scat then r_mus f i * r_G f i / (4*PI) else 0).

Lemma upwind_upper n S f es bs I scat nodes hi :
  covers nodes es -> lumped bs -> (forall i, In i nodes -> closed_cv es bs i) ->
  (forall i, In i nodes -> 0 < r_vol f i /\ 0 < r_mua f i + r_mus f i) ->
  (forall b, In b bs -> r_Ibc f (b_nn b) <= hi) ->
  (forall i, In i nodes -> emission scat f i <= (r_mua f i + r_mus f i) * hi) ->
  (forall i, In i nodes -> rad_rhs Upwind scat n S f es bs I i = 0) ->
  forall i, In i nodes -> I i <= hi.
Proof.
  intros HC HL HCl HP HW HE HR i Hi.
  destruct (list_argmax I nodes) as (m & Hm & Hmax); [intros E; rewrite E in Hi; contradiction|].
  enough (I m <= hi) by (specialize (Hmax i Hi); lra).
  destruct (Rle_or_lt (I m) hi) as [|Hgt]; [assumption|exfalso].
  pose proof (HR m Hm) as Z. rewrite (upwind_relative n S f es bs I scat m HL (HCl m Hm)) in Z.
  assert (L1 : lsum (fun e => (if Nat.eqb (eL e) m then Rmax 0 (- sjaj n S (eA e)) * (I (eR e) - I m) else 0)
                 + (if Nat.eqb (eR e) m then Rmax 0 (sjaj n S (eA e)) * (I (eL e) - I m) else 0)) es <= 0).
  { apply lsum_nonpos. intros e He. destruct HC as [_ HC]. destruct (HC e He) as [HeL HeR].
    pose proof (Hmax _ HeL). pose proof (Hmax _ HeR).
    pose proof (Rmax_l 0 (- sjaj n S (eA e))). pose proof (Rmax_l 0 (sjaj n S (eA e))).
    destruct (Nat.eqb (eL e) m), (Nat.eqb (eR e) m); nra. }
  assert (L2 : lsum (fun b => if Nat.eqb (b_nn b) m then Rmax 0 (- sjaj n S (b_A b)) * (r_Ibc f m - I m) else 0) bs <= 0).
  { apply lsum_nonpos. intros b Hb. pose proof (HW b Hb) as W. pose proof (Rmax_l 0 (- sjaj n S (b_A b))).
    destruct (Nat.eqb_spec (b_nn b) m) as [<-|]; [|lra]. nra. }
  destruct (HP m Hm) as [V0 E0]. pose proof (HE m Hm) as EM.
  assert (A : 0 < absorbed scat f I m).
  { unfold absorbed, emission in *. apply Rmult_lt_0_compat; [assumption|].
    assert ((r_mua f m + r_mus f m) * hi < (r_mua f m + r_mus f m) * I m) by (apply Rmult_lt_compat_l; assumption).
    lra. }
  lra.
Qed.

(** superposition *)
Definition comb (a b : R) (f g : rfields) : rfields :=
  mkRF (r_x f) (r_mua f) (r_mus f) (fun i => a * r_G f i + b * r_G g i) (fun i => a * r_src f i + b * r_src g i)
       (r_vol f) (fun i => a * r_Ibc f i + b * r_Ibc g i).
Lemma upwind_linear n S f g es bs I J scat a b i :
  r_mua g = r_mua f -> r_mus g = r_mus f -> r_vol g = r_vol f ->
  rad_rhs Upwind scat n S (comb a b f g) es bs (fun k => a * I k + b * J k) i
  = a * rad_rhs Upwind scat n S f es bs I i + b * rad_rhs Upwind scat n S g es bs J i.
Proof.
  intros E1 E2 E3. rewrite !rad_rhs_sums.
  assert (A : absorbed scat (comb a b f g) (fun k => a * I k + b * J k) i = a * absorbed scat f I i + b * absorbed scat g J i).
  { unfold absorbed, comb; cbn [r_vol r_mua r_mus r_src r_G]. rewrite E1, E2, E3. unfold Rdiv. destruct scat; ring. }
  rewrite A.
  assert (B : lsum (fun e => add_rhs (edge_op Upwind n S (comb a b f g) (fun k => a * I k + b * J k) e) e i) es
    = a * lsum (fun e => add_rhs (edge_op Upwind n S f I e) e i) es + b * lsum (fun e => add_rhs (edge_op Upwind n S g J e) e i) es).
  { rewrite <- !lsum_scal, <- lsum_plus. apply lsum_ext. intros e _. unfold add_rhs.
    cbn [edge_op rad_edge_upwind sr0 sr1]. destruct (Rlt_dec 0 _), (Nat.eqb (eL e) i), (Nat.eqb (eR e) i); ring. }
  assert (C : lsum (fun b0 => if Nat.eqb (b_nn b0) i then - wall_out n S (comb a b f g) (fun k => a * I k + b * J k) b0 else 0) bs
    = a * lsum (fun b0 => if Nat.eqb (b_nn b0) i then - wall_out n S f I b0 else 0) bs
      + b * lsum (fun b0 => if Nat.eqb (b_nn b0) i then - wall_out n S g J b0 else 0) bs).
  { rewrite <- !lsum_scal, <- lsum_plus. apply lsum_ext. intros b0 _.
    destruct (Nat.eqb (b_nn b0) i); [|ring]. unfold wall_out, comb; cbn [r_Ibc]. cbv zeta.
    rewrite (lsum_ext (fun p => fst p * (a * I (snd p) + b * J (snd p))) (fun p => a * (fst p * I (snd p)) + b * (fst p * J (snd p)))) by (intros; ring).
    rewrite (lsum_ext (fun p => fst p * (a * r_Ibc f (snd p) + b * r_Ibc g (snd p))) (fun p => a * (fst p * r_Ibc f (snd p)) + b * (fst p * r_Ibc g (snd p)))) by (intros; ring).
    rewrite !lsum_plus, !lsum_scal. destruct (Rlt_dec 0 _); ring. }
  rewrite B, C. ring.
Qed.

(** every solution of the upwind equations of one ordinate stays between the smallest and the largest
    of the wall intensities and the emission-to-extinction ratios; in particular it is not negative *)
Theorem C63_upwind_intensity_bounds : forall n S f es bs I scat nodes lo hi,
  covers nodes es -> lumped bs -> (forall i, In i nodes -> closed_cv es bs i) ->
  (forall i, In i nodes -> 0 < r_vol f i /\ 0 < r_mua f i + r_mus f i) ->
  (forall b, In b bs -> lo <= r_Ibc f (b_nn b) <= hi) ->
  (forall i, In i nodes -> lo * (r_mua f i + r_mus f i) <= emission scat f i <= hi * (r_mua f i + r_mus f i)) ->
  (forall i, In i nodes -> rad_rhs Upwind scat n S f es bs I i = 0) ->
  forall i, In i nodes -> lo <= I i <= hi.
Proof.
  intros n S f es bs I scat nodes lo hi HC HL HCl HP HW HE HR i Hi. split.
  - enough (-1 * I i + 0 * I i <= - lo) by lra.
    apply (upwind_upper n S (comb (-1) 0 f f) es bs (fun k => -1 * I k + 0 * I k) scat nodes (-lo)); try assumption.
    + intros b Hb. cbn [comb r_Ibc]. specialize (HW b Hb). lra.
    + intros k Hk. specialize (HE k Hk). unfold emission in *. cbn [comb r_src r_mus r_G r_mua]. unfold Rdiv in *.
      destruct scat; lra.
    + intros k Hk. rewrite upwind_linear by reflexivity. rewrite HR by assumption. ring.
  - apply (upwind_upper n S f es bs I scat nodes hi); try assumption.
    + intros b Hb. apply (HW b Hb).
    + intros k Hk. specialize (HE k Hk). lra.
Qed.

(** the update computed from any iterate lands in those bounds *)
Corollary C63_upwind_update_bounds : forall n S f es bs I d scat nodes lo hi,
  covers nodes es -> bips_on nodes bs -> lumped bs -> (forall i, In i nodes -> closed_cv es bs i) ->
  (forall i, In i nodes -> 0 < r_vol f i /\ 0 < r_mua f i + r_mus f i) ->
  (forall b, In b bs -> lo <= r_Ibc f (b_nn b) <= hi) ->
  (forall i, In i nodes -> lo * (r_mua f i + r_mus f i) <= emission scat f i <= hi * (r_mua f i + r_mus f i)) ->
  (forall i, In i nodes -> lsum (fun j => rad_lhs Upwind n S f es bs I i j * d j) nodes = rad_rhs Upwind scat n S f es bs I i) ->
  forall i, In i nodes -> lo <= I i + d i <= hi.
Proof.
  intros n S f es bs I d scat nodes lo hi HC HB HL HCl HP HW HE HS i Hi.
  apply (C63_upwind_intensity_bounds n S f es bs (fun a => I a + d a) scat nodes lo hi); try assumption.
  apply C63_solve_gives_zero_residual; assumption.
Qed.

(** the upwind equations of one ordinate have at most one solution, so the matrix is regular *)
Theorem C63_upwind_unique : forall n S f es bs I J scat nodes,
  covers nodes es -> lumped bs -> (forall i, In i nodes -> closed_cv es bs i) ->
  (forall i, In i nodes -> 0 < r_vol f i /\ 0 < r_mua f i + r_mus f i) ->
  (forall i, In i nodes -> rad_rhs Upwind scat n S f es bs I i = 0) ->
  (forall i, In i nodes -> rad_rhs Upwind scat n S f es bs J i = 0) ->
  forall i, In i nodes -> I i = J i.
Proof.
  intros n S f es bs I J scat nodes HC HL HCl HP HI HJ i Hi.
  assert (0 <= 1 * I i + -1 * J i <= 0); [|lra].
  apply (C63_upwind_intensity_bounds n S (comb 1 (-1) f f) es bs (fun k => 1 * I k + -1 * J k) scat nodes 0 0); try assumption.
  - intros b Hb. cbn [comb r_Ibc]. lra.
  - intros k Hk. unfold emission. cbn [comb r_src r_mus r_G r_mua]. unfold Rdiv. destruct scat; lra.
  - intros k Hk. rewrite upwind_linear by reflexivity. rewrite HI, HJ by assumption. ring.
Qed.
