(** C74 continued: decomposition, extremes, wall shear stress, consistency with the momentum equation *)
Require Import Reals List Bool Arith Lra Lia Permutation.
From Verif Require Import Edge_Model Edge_Proofs Elem_Model Elem_Proofs Wall_Model Wall_Props2 Bnd_Spec Force_Model Force_Spec Force_Proofs Force_Props.
From Verif Require Sum_Proofs Geom_Props Rad_Quad_Proofs3 Motion_Props3 Prop_Props.
Import ListNotations.
Open Scope R_scope.

(** ** order and decomposition *)
Lemma kind_perm nr nr' algs algs' wf : Forall2 (same_request nr nr') algs algs' -> Permutation (kind_points algs wf) (kind_points algs' wf).
Proof.
  induction 1 as [|g g' l l' (Ew & _ & _ & _ & P) _ IH]; [constructor|]. unfold kind_points in *. cbn [filter]. rewrite Ew.
  destruct (Bool.eqb (a_wf g') wf); [cbn [flat_map]; apply Permutation_app; assumption|exact IH].
Qed.
Lemma node_mean_perm n l l' q a : Permutation l l' -> node_mean n l q a = node_mean n l' q a.
Proof. intros P. unfold node_mean, node_area. rewrite (Sum_Proofs.lsum_perm _ _ _ P). rewrite (Sum_Proofs.lsum_perm (fun b => if Nat.eqb (s_nn b) a then amag n (s_A b) else 0) _ _ P). reflexivity. Qed.
Theorem C74_nodal_decomposition_free n nr nr' incl kappa f algs algs' a : Forall2 (same_request nr nr') algs algs' ->
  nodal_tau_wall n nr incl kappa f algs a = nodal_tau_wall n nr' incl kappa f algs' a /\
  nodal_yplus n nr incl kappa f algs a = nodal_yplus n nr' incl kappa f algs' a /\
  forall i, (i < n)%nat -> nodal_pressure_force n nr incl kappa f algs a i = nodal_pressure_force n nr' incl kappa f algs' a i.
Proof.
  intros H.
  assert (L : forall g, In g algs -> length (a_pts g) = nr) by (intros g Hg; induction H as [|g0 g0' l l' (_ & _ & E & _) _ IH]; [destruct Hg|destruct Hg as [->|Hg]; auto]).
  assert (L' : forall g, In g algs' -> length (a_pts g) = nr') by (intros g Hg; clear L; induction H as [|g0 g0' l l' (_ & _ & _ & E & _) _ IH]; [destruct Hg|destruct Hg as [->|Hg]; auto]).
  destruct (C74_nodal_fields n nr incl kappa f algs L a) as (-> & ->). destruct (C74_nodal_fields n nr' incl kappa f algs' L' a) as (-> & ->).
  split; [|split].
  - f_equal; apply node_mean_perm; eapply kind_perm; exact H.
  - f_equal; apply node_mean_perm; eapply kind_perm; exact H.
  - intros i Hi. rewrite (nodal_pf_sum n nr), (nodal_pf_sum n nr') by assumption. clear L L'.
    induction H as [|g g' l l' (_ & _ & _ & _ & P) _ IH]; [reflexivity|]. rewrite !Sum_Proofs.lsum_cons, IH. f_equal. apply Sum_Proofs.lsum_perm, P.
Qed.

(** ** extremes of y+ *)
Lemma rank_in g nr b : length (a_pts g) = nr -> In b (points g) -> exists r, (r < nr)%nat /\ In b (rank_pts g r).
Proof.
  intros <- Hb. apply in_concat in Hb. destruct Hb as (l & Hl & Hb). apply (In_nth _ _ []) in Hl. destruct Hl as (r & Hr & E).
  exists r. split; [exact Hr|]. unfold rank_pts. rewrite E. exact Hb.
Qed.
Lemma rank_points g r b : In b (rank_pts g r) -> In b (points g).
Proof.
  unfold rank_pts, points. intros H. destruct (Nat.lt_ge_cases r (length (a_pts g))) as [L|L].
  - apply in_concat. exists (nth r (a_pts g) []). split; [apply nth_In, L|exact H].
  - rewrite nth_overflow in H by exact L. destruct H.
Qed.
(** The reported extremes are the smallest and largest point values of y+ over the whole surface. *)
Theorem C74_yplus_extremes n nr incl kappa f algs g : length (a_pts g) = nr -> points g <> [] ->
  let y b := k_yplus (kern n incl kappa f g b) in
  (forall b, In b (points g) -> - 10^8 <= y b <= 10^8) ->
  ((forall b, In b (points g) -> report_min n nr incl kappa f algs g <= y b <= report_max n nr incl kappa f algs g) /\
   (exists b, In b (points g) /\ y b = report_min n nr incl kappa f algs g) /\
   (exists b, In b (points g) /\ y b = report_max n nr incl kappa f algs g)).
Proof.
  intros HL NE y HB.
  set (mn := report_min n nr incl kappa f algs g). set (mx := report_max n nr incl kappa f algs g).
  assert (Lo : forall b, In b (points g) -> mn <= y b).
  { intros b Hb. destruct (rank_in g nr b HL Hb) as (r & Hr & Hbr). unfold mn, report_min.
    change (fold_left Rmin) with (fold_left (fun a x : R => Rmin a x)).
    match goal with |- fold_left _ ?l ?a <= _ => destruct (Motion_Props3.fold_min_spec l a) as (_ & B & _) end. cbv zeta in B.
    eapply Rle_trans; [apply B; apply in_map_iff; exists r; split; [reflexivity|apply in_seq; lia]|].
    unfold run_rank. rewrite visit_min. change (fold_left Rmin) with (fold_left (fun a x : R => Rmin a x)).
    match goal with |- fold_left _ ?l ?a <= _ => destruct (Motion_Props3.fold_min_spec l a) as (_ & C & _) end. cbv zeta in C.
    apply C. apply in_map_iff. exists b. split; [reflexivity|exact Hbr]. }
  assert (Hi : forall b, In b (points g) -> y b <= mx).
  { intros b Hb. destruct (rank_in g nr b HL Hb) as (r & Hr & Hbr). unfold mx, report_max.
    change (fold_left Rmax) with (fold_left (fun a x : R => Rmax a x)).
    match goal with |- _ <= fold_left _ ?l ?a => destruct (Motion_Props3.fold_max_spec l a) as (_ & B & _) end. cbv zeta in B.
    eapply Rle_trans; [|apply B; apply in_map_iff; exists r; split; [reflexivity|apply in_seq; lia]].
    unfold run_rank. rewrite visit_max. change (fold_left Rmax) with (fold_left (fun a x : R => Rmax a x)).
    match goal with |- _ <= fold_left _ ?l ?a => destruct (Motion_Props3.fold_max_spec l a) as (_ & C & _) end. cbv zeta in C.
    apply C. apply in_map_iff. exists b. split; [reflexivity|exact Hbr]. }
  destruct (points g) as [|b0 bs] eqn:Ep; [congruence|].
  assert (H0 : In b0 (points g)) by (rewrite Ep; now left). rewrite <- Ep in *. clear Ep.
  split; [intros b Hb; split; auto|]. split.
  - assert (A : mn = 10^8 \/ exists b, In b (points g) /\ y b = mn).
    { unfold mn, report_min. change (fold_left Rmin) with (fold_left (fun a x : R => Rmin a x)).
      match goal with |- fold_left _ ?l ?a = _ \/ _ => destruct (Motion_Props3.fold_min_spec l a) as (_ & _ & C) end. cbv zeta in C.
      destruct C as [C|C]; [left; exact C|]. apply in_map_iff in C. destruct C as (r & E & Hr). rewrite <- E. unfold run_rank. rewrite visit_min.
      change (fold_left Rmin) with (fold_left (fun a x : R => Rmin a x)).
      match goal with |- fold_left _ ?l ?a = _ \/ _ => destruct (Motion_Props3.fold_min_spec l a) as (_ & _ & D) end. cbv zeta in D. cbn [y_min] in *.
      destruct D as [D|D]; [left; exact D|]. right. apply in_map_iff in D. destruct D as (b & Eb & Hb). exists b. split; [eapply rank_points; exact Hb|exact Eb]. }
    destruct A as [A|A]; [|exact A]. exists b0. split; [exact H0|]. pose proof (Lo b0 H0). destruct (HB b0 H0). lra.
  - assert (A : mx = - 10^8 \/ exists b, In b (points g) /\ y b = mx).
    { unfold mx, report_max. change (fold_left Rmax) with (fold_left (fun a x : R => Rmax a x)).
      match goal with |- fold_left _ ?l ?a = _ \/ _ => destruct (Motion_Props3.fold_max_spec l a) as (_ & _ & C) end. cbv zeta in C.
      destruct C as [C|C]; [left; exact C|]. apply in_map_iff in C. destruct C as (r & E & Hr). rewrite <- E. unfold run_rank. rewrite visit_max.
      change (fold_left Rmax) with (fold_left (fun a x : R => Rmax a x)).
      match goal with |- fold_left _ ?l ?a = _ \/ _ => destruct (Motion_Props3.fold_max_spec l a) as (_ & _ & D) end. cbv zeta in D. cbn [y_max] in *.
      destruct D as [D|D]; [left; exact D|]. right. apply in_map_iff in D. destruct D as (b & Eb & Hb). exists b. split; [eapply rank_points; exact Hb|exact Eb]. }
    destruct A as [A|A]; [|exact A]. exists b0. split; [exact H0|]. pose proof (Hi b0 H0). destruct (HB b0 H0). lra.
Qed.
(** With one request the nodal y+ lies between the two extremes printed for it. *)
Theorem C74_nodal_yplus_within_report n nr incl kappa f g a : length (a_pts g) = nr ->
  (forall b, In b (points g) -> 0 < amag n (s_A b)) -> (exists b, In b (points g) /\ s_nn b = a) ->
  (forall b, In b (points g) -> - 10^8 <= k_yplus (kern n incl kappa f g b) <= 10^8) ->
  report_min n nr incl kappa f [g] g <= nodal_yplus n nr incl kappa f [g] a <= report_max n nr incl kappa f [g] g.
Proof.
  intros HL HA HE HB.
  assert (NE : points g <> []) by (destruct HE as (b & Hb & _); intros E; rewrite E in Hb; destruct Hb).
  pose proof (C74_yplus_extremes n nr incl kappa f [g] g HL NE HB) as (X & _).
  assert (K : forall wf, kind_points [g] wf = if Bool.eqb (a_wf g) wf then points g else []).
  { intros wf. unfold kind_points. cbn [filter]. destruct (Bool.eqb (a_wf g) wf); cbn [flat_map]; [apply app_nil_r|reflexivity]. }
  assert (Ks : kind_points [g] (a_wf g) = points g) by (rewrite K, eqb_reflx; reflexivity).
  assert (T : exists t, forall b, In b (points g) -> - t <= k_tau (kern n incl kappa f g b) <= t).
  { clear. induction (points g) as [|b l (t & IH)]; [exists 0; intros b []|]. exists (Rmax t (Rabs (k_tau (kern n incl kappa f g b)))).
    intros b' [->|Hb]; [set (x := k_tau (kern n incl kappa f g b')); pose proof (Rmax_r t (Rabs x)); pose proof (Rle_abs x); pose proof (Rle_abs (- x)) as M; rewrite Rabs_Ropp in M; lra|].
    pose proof (Rmax_l t (Rabs (k_tau (kern n incl kappa f g b)))). specialize (IH b' Hb). lra. }
  destruct T as (t & T).
  apply (C74_nodal_values_between n nr incl kappa f [g]) with (wf := a_wf g) (tlo := - t) (thi := t).
  - intros g' [<-|[]]. exact HL.
  - rewrite Ks. exact HA.
  - rewrite Ks. exact HE.
  - rewrite K. destruct (a_wf g); cbn; intros b [].
  - intros g' b [<-|[]] _ Hb _. split; [apply T, Hb|apply X, Hb].
Qed.

(** ** wall shear stress *)
Lemma res_tau_vec n f b i : fold_left (fun a j => a + - ipol b (q_mu f) * (q_dudx f (s_nn b) i j + q_dudx f (s_nn b) j i) * nrm n (s_A b) j) (seq 0 n) 0 = traction n f b i.
Proof.
  rewrite fold_seq_add. unfold traction, viscous_flux. rewrite ipol_at.
  rewrite (sumn_ext n _ (fun j => - at_pt b (q_mu f) * ((q_dudx f (s_nn b) i j + q_dudx f (s_nn b) j i) * nrm n (s_A b) j))) by (intros; ring).
  rewrite sumn_scal. ring.
Qed.
(** On a resolved wall the shear stress is the magnitude of the tangential part of the viscous traction; y+ is formed with
    the friction velocity it implies. *)
Theorem C74_resolved_wall_shear n incl f b :
  k_tau (resolved n incl f b) = mag n (tangential_part n (nrm n (s_A b)) (traction n f b)) /\
  (0 < at_pt b (q_rho f) -> 0 < at_pt b (q_mu f) -> exists utau y, 0 <= utau /\ 0 <= y /\
     at_pt b (q_rho f) * (utau * utau) = k_tau (resolved n incl f b) /\
     k_yplus (resolved n incl f b) = at_pt b (q_rho f) * y * utau / at_pt b (q_mu f)).
Proof.
  split.
  - unfold resolved. cbn [k_tau]. unfold mag, dotp. f_equal. apply sumn_ext. intros i Hi. rewrite fold_pick by exact Hi. rewrite !res_tau_vec.
    rewrite (sumn_ext n (fun j => nrm n (s_A b) i * nrm n (s_A b) j * fold_left (fun a k => a + - ipol b (q_mu f) * (q_dudx f (s_nn b) j k + q_dudx f (s_nn b) k j) * nrm n (s_A b) k) (seq 0 n) 0)
       (fun j => nrm n (s_A b) i * (nrm n (s_A b) j * traction n f b j))) by (intros; rewrite res_tau_vec; ring).
    rewrite (sumn_scal n (nrm n (s_A b) i)). unfold tangential_part, normal_part, dotp. ring.
  - intros Hr Hm. unfold resolved. cbn [k_tau k_yplus]. rewrite !ipol_at.
    match goal with |- context [sqrt (sqrt ?t / _)] => set (T := t) end.
    match goal with |- context [_ * sqrt ?t / _ * _] => set (Y := t) end.
    exists (sqrt (sqrt T / at_pt b (q_rho f))), (sqrt Y).
    assert (0 <= sqrt T / at_pt b (q_rho f)) by (apply Rmult_le_pos; [apply sqrt_pos|apply Rlt_le, Rinv_0_lt_compat, Hr]).
    split; [apply sqrt_pos|]. split; [apply sqrt_pos|]. split; [rewrite sqrt_sqrt by assumption; field; lra|]. unfold Rdiv. ring.
Qed.
(** the tangential part is never longer than the whole traction *)
Corollary C74_wall_shear_bounded n incl f b : 0 < amag n (s_A b) -> k_tau (resolved n incl f b) <= mag n (traction n f b).
Proof.
  intros HA. rewrite (proj1 (C74_resolved_wall_shear n incl f b)). unfold mag. apply sqrt_le_1_alt.
  pose proof (nrm_unit n (s_A b) HA) as U. unfold dotn in U. set (m := nrm n (s_A b)) in *. set (T := traction n f b).
  assert (E : dotp n (tangential_part n m T) (tangential_part n m T) = dotp n T T - dotp n m T * dotp n m T).
  { unfold dotp at 1. rewrite (sumn_ext n _ (fun i => T i * T i + (- 2 * dotp n m T) * (m i * T i) + (dotp n m T * dotp n m T) * (m i * m i)))
      by (intros; unfold tangential_part, normal_part; ring).
    rewrite !sumn_plus, !sumn_scal, U. unfold dotp. ring. }
  rewrite E. pose proof (Rle_0_sqr (dotp n m T)). unfold Rsqr in *. lra.
Qed.
(** On a wall-function wall it is lambda/area times the tangential slip, i.e. the size of the wall force per area; once the
    friction velocity satisfies the logarithmic law it is rho utau^2. *)
Theorem C74_wall_function_shear n kappa f b : 0 < amag n (s_A b) ->
  let rho := at_pt b (q_rho f) in let mu := at_pt b (q_mu f) in
  let lam := wlambda kappa rho mu (s_yp b) (s_ut b) (amag n (s_A b)) in
  let us := mag n (tangential_part n (nrm n (s_A b)) (slip f b)) in
  k_yplus (modelled n kappa f b) = rho * s_yp b * s_ut b / mu /\
  k_tau (modelled n kappa f b) = lam * us / amag n (s_A b) /\
  (0 <= lam -> k_tau (modelled n kappa f b) * amag n (s_A b) = mag n (wf_force n kappa f b)) /\
  (yplusCrit < rho * s_yp b * s_ut b / mu -> s_ut b * ln (elog * (rho * s_yp b * s_ut b / mu)) = kappa * us ->
     k_tau (modelled n kappa f b) = rho * (s_ut b * s_ut b)).
Proof.
  intros HA rho mu lam us.
  assert (T : k_tau (modelled n kappa f b) = lam * us / amag n (s_A b)).
  { unfold modelled. cbn [k_tau]. rewrite !ipol_at. fold rho mu. unfold us, mag, dotp.
    rewrite (sumn_ext n (fun i => (tanv n (nrm n (s_A b)) (fun j => ipol b (fun a => q_u f a j)) i - tanv n (nrm n (s_A b)) (fun j => ipol b (fun a => q_ubc f a j)) i) * (tanv n (nrm n (s_A b)) (fun j => ipol b (fun a => q_u f a j)) i - tanv n (nrm n (s_A b)) (fun j => ipol b (fun a => q_ubc f a j)) i))
       (fun i => tangential_part n (nrm n (s_A b)) (slip f b) i * tangential_part n (nrm n (s_A b)) (slip f b) i)) by (intros i Hi; rewrite slip_tan by exact Hi; reflexivity).
    reflexivity. }
  split; [unfold modelled; cbn [k_yplus]; rewrite !ipol_at; reflexivity|]. split; [exact T|]. split.
  - intros Hl. rewrite T. unfold Rdiv. rewrite Rmult_assoc, Rinv_l, Rmult_1_r by lra. unfold us, mag. rewrite <- (sqrt_square lam) at 1 by exact Hl.
    rewrite <- sqrt_mult; [|apply Rmult_le_pos; exact Hl|apply sq_nonneg]. f_equal. unfold dotp. rewrite <- sumn_scal. apply sumn_ext. intros i Hi.
    unfold wf_force. fold rho mu. fold lam. ring.
  - intros Hc Hlaw. rewrite T. unfold lam, wlambda. cbv zeta. destruct (Rlt_dec yplusCrit (rho * s_yp b * s_ut b / mu)); [|contradiction].
    assert (L0 : 0 < ln (elog * (rho * s_yp b * s_ut b / mu))) by (apply Wall_Props.ln_ge || (rewrite <- ln_1; apply ln_increasing; [lra|unfold elog, yplusCrit in *; lra])).
    assert (Q : kappa * us / ln (elog * (rho * s_yp b * s_ut b / mu)) = s_ut b) by (rewrite <- Hlaw; field; lra).
    replace (rho * kappa * s_ut b / ln (elog * (rho * s_yp b * s_ut b / mu)) * amag n (s_A b) * us / amag n (s_A b))
      with (rho * s_ut b * (kappa * us / ln (elog * (rho * s_yp b * s_ut b / mu)))) by (field; lra).
    rewrite Q. ring.
Qed.
