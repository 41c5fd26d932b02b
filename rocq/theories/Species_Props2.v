(** * C100: k and epsilon kept consistent, wall dissipation, maximum edge length, enthalpy coefficient *)
From Coq Require Import Reals List Bool Arith Lia Lra Permutation.
From Verif Require Import RUtil Edge_Model Edge_Proofs Sum_Proofs Elem_Model Wall_Model Aux_Model Species_Model.
Import ListNotations.
Open Scope R_scope.

(** ** k-epsilon update and clip *)
(** an increment that keeps both quantities above 1e-16 is accepted as it is, and the eddy viscosity is left alone *)
Theorem C100_keps_increment_accepted : forall cmu rho visc tke eps dk de tv, 1/10^16 < tke + dk -> 1/10^16 < eps + de ->
  keps_update cmu rho visc tke eps dk de tv = (tke + dk, eps + de, tv).
Proof.
  intros cmu rho visc tke eps dk de tv H1 H2. unfold keps_update, small. destruct (Rlt_dec _ _) as [_|N]; [|contradiction].
  destruct (Rlt_dec _ _) as [_|N]; [reflexivity|contradiction].
Qed.
(** whatever the solver returns, k and epsilon stay positive ... *)
Theorem C100_keps_update_positive : forall cmu rho visc tke eps dk de tv, 0 < cmu -> 0 < rho -> 0 < visc ->
  let r := keps_update cmu rho visc tke eps dk de tv in 0 < fst (fst r) /\ 0 < snd (fst r).
Proof.
  intros cmu rho visc tke eps dk de tv Hc Hr Hv. unfold keps_update. rewrite Rmult_1_r.
  assert (Hs : 0 < small) by (unfold small; lra). assert (Ht : 0 < clipTke) by (unfold clipTke; lra).
  assert (P : forall k, 0 < k -> 0 < cmu * rho * k * k / visc)
    by (intros k Hk; apply Rdiv_lt_0_compat; [repeat apply Rmult_lt_0_compat; assumption|assumption]).
  destruct (Rlt_dec small (tke + dk)) as [A|A]; [destruct (Rlt_dec small (eps + de)) as [B|B]|
    destruct (Rlt_dec (tke + dk) small) as [C|C]; [destruct (Rlt_dec (eps + de) small) as [B|B]|]]; cbn [fst snd].
  - lra.
  - split; [lra|apply P; lra].
  - split; [assumption|now apply P].
  - split; [|lra]. apply sqrt_lt_R0. apply Rdiv_lt_0_compat; apply Rmult_lt_0_compat; lra.
  - split; [lra|apply P; lra].
Qed.
(** ... and whenever a value is reset, the new pair is in equilibrium with the molecular viscosity:
    eddy viscosity = molecular viscosity = cmu rho k^2/eps. *)
Theorem C100_keps_reset_consistent : forall cmu rho visc tke eps dk de tv, 0 < cmu -> 0 < rho -> 0 < visc ->
  ~ (1/10^16 < tke + dk /\ 1/10^16 < eps + de) ->
  let '(k, e, t) := keps_update cmu rho visc tke eps dk de tv in t = visc /\ t = cmu * rho * (k * k) / e.
Proof.
  intros cmu rho visc tke eps dk de tv Hc Hr Hv Hn.
  assert (Hs : 0 < small) by (unfold small; lra). assert (Ht : 0 < clipTke) by (unfold clipTke; lra).
  change (~ (small < tke + dk /\ small < eps + de)) in Hn.
  assert (P : forall k, 0 < k -> visc = cmu * rho * (k * k) / (cmu * rho * k * k / visc)) by (intros k Hk; field; repeat split; lra).
  unfold keps_update. rewrite !Rmult_1_r.
  destruct (Rlt_dec small (tke + dk)) as [A|A]; [destruct (Rlt_dec small (eps + de)) as [B|B]|
    destruct (Rlt_dec (tke + dk) small) as [C|C]; [destruct (Rlt_dec (eps + de) small) as [B|B]|]].
  - tauto.
  - split; [reflexivity|apply P; lra].
  - split; [reflexivity|now apply P].
  - split; [reflexivity|]. rewrite sqrt_sqrt; [field; repeat split; lra|].
    apply Rlt_le, Rdiv_lt_0_compat; apply Rmult_lt_0_compat; lra.
  - split; [reflexivity|apply P; lra].
Qed.
(** a good quantity is not thrown away with the bad one *)
Theorem C100_keps_good_value_kept : forall cmu rho visc tke eps dk de tv,
  (1/10^16 <= tke + dk -> fst (fst (keps_update cmu rho visc tke eps dk de tv)) = tke + dk)
  /\ (1/10^16 < eps + de -> tke + dk <> 1/10^16 -> snd (fst (keps_update cmu rho visc tke eps dk de tv)) = eps + de).
Proof.
  intros cmu rho visc tke eps dk de tv. change (1/10^16) with small. unfold keps_update.
  destruct (Rlt_dec small (tke + dk)) as [A|A]; [destruct (Rlt_dec small (eps + de)) as [B|B]|
    destruct (Rlt_dec (tke + dk) small) as [C|C]; [destruct (Rlt_dec (eps + de) small) as [B|B]|]]; cbn [fst snd]; split; intros; try reflexivity; try lra.
Qed.
(** Initial values: never negative, kept when already admissible, and positive unless k is zero or (k negative and) epsilon is. *)
Theorem C100_keps_initial_nonnegative : forall cmu rho visc tke eps, 0 < cmu -> 0 < rho -> 0 < visc ->
  let r := keps_initial cmu rho visc tke eps in 0 <= fst r /\ 0 <= snd r
  /\ (0 <= tke -> 0 < eps -> r = (tke, eps))
  /\ (tke <> 0 -> eps <> 0 -> 0 < fst r /\ 0 < snd r).
Proof.
  intros cmu rho visc tke eps Hc Hr Hv. unfold keps_initial. rewrite Rmult_1_r.
  assert (Ht : 0 < clipTke) by (unfold clipTke; lra).
  assert (P : forall k, 0 <= k * k -> 0 <= cmu * rho * k * k / visc).
  { intros k Hk. apply Rmult_le_pos; [|left; now apply Rinv_0_lt_compat]. rewrite !Rmult_assoc. repeat (apply Rmult_le_pos; [lra|]). assumption. }
  assert (Q : forall k, 0 < k * k -> 0 < cmu * rho * k * k / visc).
  { intros k Hk. apply Rdiv_lt_0_compat; [|assumption]. rewrite !Rmult_assoc. repeat (apply Rmult_lt_0_compat; [lra|]). assumption. }
  destruct (Rle_dec 0 tke) as [A|A]; [destruct (Rlt_dec 0 eps) as [B|B]|destruct (Rlt_dec eps 0) as [B|B]]; cbn [fst snd].
  - repeat split; intros; try lra.
  - assert (Sq : 0 <= tke * tke) by nra. pose proof (P tke Sq).
    split; [lra|]. split; [lra|]. split; [intros; lra|]. intros H1 _. split; [lra|apply Q; nra].
  - assert (0 < clipTke * clipTke) by nra. pose proof (Q clipTke H). split; [lra|]. split; [lra|]. split; [intros; lra|]. intros; split; lra.
  - split; [apply sqrt_pos|]. split; [lra|]. split; [intros; lra|]. intros _ H2. split; [|lra].
    apply sqrt_lt_R0. apply Rdiv_lt_0_compat; apply Rmult_lt_0_compat; lra.
Qed.
(** but a start from rest keeps epsilon = 0, so cmu k^2/eps is 0/0 *)
Theorem C100_keps_initial_positive_refuted :
  ~ (forall cmu rho visc tke eps, 0 < cmu -> 0 < rho -> 0 < visc -> 0 <= tke -> 0 <= eps -> 0 < snd (keps_initial cmu rho visc tke eps)).
Proof.
  intros H. specialize (H 1 1 1 0 0 ltac:(lra) ltac:(lra) ltac:(lra) ltac:(lra) ltac:(lra)). unfold keps_initial in H.
  destruct (Rle_dec 0 0) as [_|]; [|lra]. destruct (Rlt_dec 0 0) as [|_]; [lra|]. cbn [snd] in H.
  replace (1 * 1 * 0 * 0 / (1 * 1)) with 0 in H by field. lra.
Qed.
Example C100_keps_case : keps_update (9/100) 1 (1/100) (1/10) 1 (-1) (-2) 7
  = (1/10^8, 9/100*1*(1/10^8)*(1/10^8)/(1/100*1), 1/100*1).
Proof.
  unfold keps_update, small, clipTke. destruct (Rlt_dec _ _); [lra|]. destruct (Rlt_dec _ _); [|lra].
  destruct (Rlt_dec _ _); [reflexivity|lra].
Qed.

(** ** wall dissipation *)
Lemma fold_wall n kappa pts st a :
  fst (fold_left (wall_eps_pt n kappa) pts st) a
    = fst st a + lsum (fun p => if Nat.eqb a (w_node p) then amag n (w_A p) * (w_ut p ^ 3 / (kappa * w_yp p)) else 0) pts
  /\ snd (fold_left (wall_eps_pt n kappa) pts st) a = snd st a + lsum (fun p => if Nat.eqb a (w_node p) then amag n (w_A p) else 0) pts.
Proof.
  revert st. induction pts as [|p pts IH]; intros st; cbn [fold_left]; [unfold lsum; cbn; split; ring|].
  destruct (IH (wall_eps_pt n kappa st p)) as [E1 E2]. rewrite E1, E2, !lsum_cons. unfold wall_eps_pt. cbn [fst snd].
  destruct (Nat.eqb a (w_node p)); split; try ring. unfold Rdiv. rewrite Rinv_mult. ring.
Qed.
(** the dissipation given to a wall node is the area-weighted mean of utau^3/(kappa yp) over the wall points whose nearest
    node it is; it is undefined exactly where these points have no area *)
Definition points_at (pts : list wpt) (a : nat) : list wpt := filter (fun p => Nat.eqb a (w_node p)) pts.
Lemma lsum_points F pts a : lsum (fun p => if Nat.eqb a (w_node p) then F p else 0) pts = lsum F (points_at pts a).
Proof.
  unfold points_at. induction pts as [|p pts IH]; [reflexivity|]. rewrite lsum_cons. cbn [filter].
  destruct (Nat.eqb a (w_node p)); [rewrite lsum_cons|]; rewrite IH; [reflexivity|apply Rplus_0_l].
Qed.
Theorem C100_wall_dissipation_is_area_mean : forall n kappa pts a,
  let area := lsum (fun p => amag n (w_A p)) (points_at pts a) in
  (area <> 0 -> wall_eps n kappa pts a
     = Some (lsum (fun p => amag n (w_A p) * (w_ut p ^ 3 / (kappa * w_yp p))) (points_at pts a) / area))
  /\ (area = 0 -> wall_eps n kappa pts a = None).
Proof.
  intros n kappa pts a area. unfold wall_eps. destruct (fold_wall n kappa pts (fun _ => 0, fun _ => 0) a) as [E1 E2].
  rewrite E1, E2. cbn [fst snd]. rewrite !Rplus_0_l, !lsum_points. fold area. unfold divo.
  destruct (Req_EM_T area 0); split; intros; try contradiction; reflexivity.
Qed.
Theorem C100_wall_dissipation_between : forall n kappa pts a lo hi,
  0 < lsum (fun p => amag n (w_A p)) (points_at pts a) ->
  (forall p, In p pts -> w_node p = a -> lo <= w_ut p ^ 3 / (kappa * w_yp p) <= hi) ->
  exists v, wall_eps n kappa pts a = Some v /\ lo <= v <= hi.
Proof.
  intros n kappa pts a lo hi Hp H. destruct (C100_wall_dissipation_is_area_mean n kappa pts a) as [E _].
  eexists. split; [apply E; lra|].
  assert (P : forall p, In p (points_at pts a) -> lo <= w_ut p ^ 3 / (kappa * w_yp p) <= hi).
  { intros p Hi. apply filter_In in Hi as [Hi Hn]. apply H; [assumption|]. symmetry. now apply Nat.eqb_eq. }
  revert Hp P. generalize (points_at pts a). intros l Hp P.
  assert (S : lo * lsum (fun p => amag n (w_A p)) l <= lsum (fun p => amag n (w_A p) * (w_ut p ^ 3 / (kappa * w_yp p))) l
              <= hi * lsum (fun p => amag n (w_A p)) l).
  { clear Hp. induction l as [|p l IH]; [unfold lsum; cbn; lra|]. rewrite !lsum_cons.
    specialize (IH (fun q Hq => P q (or_intror Hq))). specialize (P p (or_introl eq_refl)).
    assert (0 <= amag n (w_A p)) by apply sqrt_pos. rewrite !Rmult_plus_distr_l.
    rewrite !(fun v => Rmult_comm v (amag n (w_A p))).
    pose proof (Rmult_le_compat_l _ _ _ H0 (proj1 P)). pose proof (Rmult_le_compat_l _ _ _ H0 (proj2 P)). lra. }
  split; [apply Rle_div_r|apply Rle_div_l]; lra.
Qed.
Theorem C100_wall_dissipation_order_irrelevant : forall n kappa pts pts' a, Permutation pts pts' -> wall_eps n kappa pts a = wall_eps n kappa pts' a.
Proof.
  intros n kappa pts pts' a P. unfold wall_eps.
  destruct (fold_wall n kappa pts (fun _ => 0, fun _ => 0) a) as [E1 E2]. destruct (fold_wall n kappa pts' (fun _ => 0, fun _ => 0) a) as [E3 E4].
  rewrite E1, E2, E3, E4. now rewrite !(lsum_perm _ _ _ P).
Qed.

(** ** maximum edge length *)
Definition touches (e : nat * nat) (a : nat) : Prop := fst e = a \/ snd e = a.
Lemma max_edge_spec n x m e a :
  (touches e a -> max_edge n x m e a = Rmax (m a) (edge_len n x (fst e) (snd e))) /\ (~ touches e a -> max_edge n x m e a = m a).
Proof.
  unfold max_edge, touches. set (d := edge_len n x (fst e) (snd e)).
  destruct (Nat.eqb_spec a (snd e)) as [E2|E2], (Nat.eqb_spec a (fst e)) as [E1|E1]; split; intros H; try (exfalso; apply H; auto; fail); try reflexivity;
    try (destruct H; congruence).
  now rewrite <- Rmax_assoc, (Rmax_left d d) by lra.
Qed.
Lemma fold_max_edge n x edges m a : let r := fold_left (max_edge n x) edges m a in
  m a <= r /\ (forall e, In e edges -> touches e a -> edge_len n x (fst e) (snd e) <= r)
  /\ (r = m a \/ exists e, In e edges /\ touches e a /\ r = edge_len n x (fst e) (snd e)).
Proof.
  revert m. induction edges as [|e l IH]; intros m r; cbn [fold_left] in r.
  - subst r. split; [lra|]. split; [intros ? []|now left].
  - destruct (IH (max_edge n x m e)) as (A & B & C). fold r in A, B, C. clear IH. clearbody r.
    destruct (max_edge_spec n x m e a) as [T N].
    assert (D : touches e a \/ ~ touches e a) by (unfold touches; lia). destruct D as [D|D].
    + rewrite (T D) in A, C. split; [|split].
      * eapply Rle_trans; [apply Rmax_l|exact A].
      * intros q [<-|Hq] Hd; [eapply Rle_trans; [apply Rmax_r|exact A]|now apply B].
      * destruct C as [C|(q & Hq & Hd & Eq)]; [|right; exists q; split; [now right|auto]].
        unfold Rmax in C. destruct (Rle_dec _ _) in C; [|now left]. right. exists e. split; [now left|auto].
    + rewrite (N D) in A, C. split; [assumption|]. split.
      * intros q [<-|Hq] Hd; [contradiction|now apply B].
      * destruct C as [C|(q & Hq & Hd & Eq)]; [now left|right; exists q; split; [now right|auto]].
Qed.
(** the field is the longest of the element edges at a node: at least every incident edge, and one of them (so, where
    there is an edge, not negative) *)
Theorem C100_max_length_is_longest_edge : forall n x edges a,
  (forall e, In e edges -> touches e a -> edge_len n x (fst e) (snd e) <= max_length n x edges a)
  /\ ((exists e, In e edges /\ touches e a) ->
      (exists e, In e edges /\ touches e a /\ max_length n x edges a = edge_len n x (fst e) (snd e)))
  /\ ((forall e, In e edges -> ~ touches e a) -> max_length n x edges a = - 10^16).
Proof.
  intros n x edges a. unfold max_length. destruct (fold_max_edge n x edges (fun _ => largelyNegative) a) as (A & B & C).
  cbv beta in *. set (r := fold_left _ _ _ a) in *. split; [assumption|]. split.
  - intros (e & He & Ht). destruct C as [C|C]; [|assumption]. exfalso. pose proof (B e He Ht) as L. rewrite C in L.
    assert (0 <= edge_len n x (fst e) (snd e)) by apply sqrt_pos. unfold largelyNegative in L. assert (0 < 10^16) by (apply pow_lt; lra). lra.
  - intros N. destruct C as [C|(e & He & Ht & _)]; [exact C|]. now apply N in He.
Qed.
Theorem C100_max_length_nonnegative : forall n x edges a, (exists e, In e edges /\ touches e a) -> 0 <= max_length n x edges a.
Proof. intros n x edges a H. destruct (proj1 (proj2 (C100_max_length_is_longest_edge n x edges a)) H) as (e & _ & _ & ->). apply sqrt_pos. Qed.
(** it depends on the set of edges only, not on their order, repetition or direction *)
Theorem C100_max_length_same_edges : forall n x edges edges' a,
  (forall l r, (In (l, r) edges \/ In (r, l) edges) <-> (In (l, r) edges' \/ In (r, l) edges')) ->
  max_length n x edges a = max_length n x edges' a.
Proof.
  assert (Len : forall n x l r, edge_len n x l r = edge_len n x r l).
  { intros n x l r. unfold edge_len. f_equal. apply sumn_ext. intros; ring. }
  assert (Half : forall n x E E' a, (forall l r, (In (l, r) E \/ In (r, l) E) -> (In (l, r) E' \/ In (r, l) E')) -> max_length n x E a <= max_length n x E' a).
  { intros n x E E' a H. unfold max_length at 1. destruct (fold_max_edge n x E (fun _ => largelyNegative) a) as (_ & _ & C). cbv beta in C.
    destruct C as [->|([l r] & Hi & Ht & ->)].
    - exact (proj1 (fold_max_edge n x E' (fun _ => largelyNegative) a)).
    - cbn [fst snd]. destruct (H l r (or_introl Hi)) as [J|J].
      + exact (proj1 (C100_max_length_is_longest_edge n x E' a) (l, r) J Ht).
      + rewrite Len. apply (proj1 (C100_max_length_is_longest_edge n x E' a) (r, l) J). unfold touches in *. cbn [fst snd] in *. tauto. }
  intros n x E E' a H. apply Rle_antisym; apply Half; intros l r; apply H.
Qed.
Example C100_max_length_case : max_length 1 (fun a _ => INR a * INR a) [(0,1); (1,2); (3,1)]%nat 1%nat = 8.
Proof.
  assert (L : forall l r, edge_len 1 (fun a _ => INR a * INR a) l r = Rabs (INR r * INR r - INR l * INR l)).
  { intros l r. unfold edge_len, sumn. cbn [seq fold_left]. rewrite Rplus_0_l. apply sqrt_Rsqr_abs. }
  destruct (C100_max_length_is_longest_edge 1 (fun a _ => INR a * INR a) [(0,1); (1,2); (3,1)]%nat 1%nat) as (A & B & _).
  destruct B as (e & He & Ht & E); [exists (0,1)%nat; split; [now left|now right]|].
  pose proof (A (3,1)%nat ltac:(cbn; tauto) ltac:(right; reflexivity)) as G. rewrite L in G, E. cbn [fst snd INR] in *.
  rewrite E in *. destruct He as [<-|[<-|[<-|[]]]]; cbn [fst snd INR] in *;
    revert G; unfold Rabs; repeat (destruct (Rcase_abs _) as [?|?]); lra.
Qed.

(** ** diffusivity of enthalpy *)
Theorem C100_enthalpy_coefficient : forall turbulent k cp mut sigma, cp <> 0 -> (turbulent = true -> sigma <> 0) ->
  exists v, enthalpy_diff_coeff turbulent k cp mut sigma = Some v
    /\ v * cp = k + (if turbulent then cp * (mut / sigma) else 0)
    /\ (0 < k -> 0 < cp -> 0 <= mut -> 0 < sigma -> 0 < v).
Proof.
  intros turbulent k cp mut sigma Hc Hs. unfold enthalpy_diff_coeff, divo.
  destruct (Req_EM_T cp 0); [contradiction|]. destruct turbulent.
  - specialize (Hs eq_refl). destruct (Req_EM_T sigma 0); [contradiction|]. eexists. split; [reflexivity|]. split; [field; auto|].
    intros H1 H2 H3 H4. assert (0 < k / cp) by now apply Rdiv_lt_0_compat. assert (0 <= mut * (1 / sigma)); [|lra].
    apply Rmult_le_pos; [assumption|]. apply Rlt_le, Rdiv_lt_0_compat; lra.
  - eexists. split; [reflexivity|]. split; [field; auto|]. intros. now apply Rdiv_lt_0_compat.
Qed.
