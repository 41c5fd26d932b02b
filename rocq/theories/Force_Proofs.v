Require Import Reals List Bool Arith Lra Lia Permutation.
From Verif Require Import Edge_Model Edge_Proofs Elem_Model Elem_Proofs Wall_Model Wall_Props2 Bnd_Spec Force_Model Force_Spec.
From Verif Require Sum_Proofs Geom_Props Rad_Quad_Proofs3.
Import ListNotations.
Open Scope R_scope.

Lemma fold_add {A} (F : A -> R) l : forall a, fold_left (fun a x => a + F x) l a = a + lsum F l.
Proof. induction l as [|x l IH]; intros a; cbn [fold_left]; [unfold lsum; cbn; lra|]. rewrite IH, Sum_Proofs.lsum_cons. lra. Qed.
Lemma ipol_at b q : ipol b q = at_pt b q.
Proof. unfold ipol, at_pt. rewrite fold_add. lra. Qed.
Lemma fold_seq_add n (F : nat -> R) a : fold_left (fun a j => a + F j) (seq 0 n) a = a + sumn n F.
Proof. rewrite fold_add. f_equal. rewrite <- (map_id (seq 0 n)) at 1. apply Rad_Quad_Proofs3.lsum_map_seq. Qed.
Lemma fold_pick n i (c0 : R) (F : nat -> R) : (i < n)%nat ->
  fold_left (fun a j => if Nat.eqb i j then a else a - F j) (seq 0 n) c0 = c0 + F i - sumn n F.
Proof.
  intros Hi.
  assert (E : forall l a, fold_left (fun a j => if Nat.eqb i j then a else a - F j) l a
             = fold_left (fun a j => a + (if Nat.eqb i j then 0 else - F j)) l a).
  { induction l as [|x l IH]; intros a; [reflexivity|]. cbn [fold_left]. rewrite <- IH. f_equal. destruct (Nat.eqb i x); lra. }
  rewrite E, fold_seq_add.
  rewrite (sumn_ext n (fun j => if Nat.eqb i j then 0 else - F j) (fun j => dl j i * F j - F j)).
  - rewrite sumn_minus, sumn_dl by exact Hi. lra.
  - intros j Hj. unfold dl. rewrite (Nat.eqb_sym j i). destruct (Nat.eqb_spec i j); [subst|]; lra.
Qed.

Lemma visit_sums n cen area f c pts : forall st k,
  l_fm (fold_left (visit n cen area f c) pts st) k = l_fm st k +
  lsum (fun b => if (k <? 3)%nat then k_pf (c b) k else if (k <? 6)%nat then k_vf (c b) (k - 3)%nat
                 else cross_product (pad n (fun i => k_pf (c b) i + k_vf (c b) i)) (pad n (fun i => q_x f (s_nn b) i - cen i)) (k - 6)%nat) pts.
Proof.
  induction pts as [|b pts IH]; intros st k; cbn [fold_left]; [unfold lsum; cbn; lra|].
  rewrite IH, Sum_Proofs.lsum_cons. unfold visit. cbn [l_fm]. cbv zeta. lra.
Qed.
Lemma visit_pf n cen area f c pts : forall st a i, (i < n)%nat ->
  n_pf (fold_left (visit n cen area f c) pts st) a i = n_pf st a i + lsum (fun b => if Nat.eqb (s_nn b) a then k_pf (c b) i else 0) pts.
Proof.
  induction pts as [|b pts IH]; intros st a i Hi; cbn [fold_left]; [unfold lsum; cbn; lra|].
  rewrite IH, Sum_Proofs.lsum_cons by exact Hi. unfold visit. cbn [n_pf]. cbv zeta. apply Nat.ltb_lt in Hi. rewrite Hi. unfold bump.
  rewrite Nat.eqb_sym. destruct (Nat.eqb (s_nn b) a); lra.
Qed.
Lemma visit_tau n cen area f c pts : forall st a,
  n_tau (fold_left (visit n cen area f c) pts st) a = n_tau st a + lsum (fun b => if Nat.eqb (s_nn b) a then k_tau (c b) * (k_am (c b)/area a) else 0) pts.
Proof.
  induction pts as [|b pts IH]; intros st a; cbn [fold_left]; [unfold lsum; cbn; lra|].
  rewrite IH, Sum_Proofs.lsum_cons. unfold visit. cbn [n_tau]. cbv zeta. unfold bump.
  rewrite Nat.eqb_sym. destruct (Nat.eqb_spec (s_nn b) a) as [E|E]; [rewrite E|]; lra.
Qed.
Lemma visit_yp n cen area f c pts : forall st a,
  n_yp (fold_left (visit n cen area f c) pts st) a = n_yp st a + lsum (fun b => if Nat.eqb (s_nn b) a then k_yplus (c b) * (k_am (c b)/area a) else 0) pts.
Proof.
  induction pts as [|b pts IH]; intros st a; cbn [fold_left]; [unfold lsum; cbn; lra|].
  rewrite IH, Sum_Proofs.lsum_cons. unfold visit. cbn [n_yp]. cbv zeta. unfold bump.
  rewrite Nat.eqb_sym. destruct (Nat.eqb_spec (s_nn b) a) as [E|E]; [rewrite E|]; lra.
Qed.
Lemma visit_min n cen area f c pts : forall st,
  y_min (fold_left (visit n cen area f c) pts st) = fold_left Rmin (map (fun b => k_yplus (c b)) pts) (y_min st).
Proof. induction pts as [|b pts IH]; intros st; cbn [fold_left map]; [reflexivity|]. rewrite IH. reflexivity. Qed.
Lemma visit_max n cen area f c pts : forall st,
  y_max (fold_left (visit n cen area f c) pts st) = fold_left Rmax (map (fun b => k_yplus (c b)) pts) (y_max st).
Proof. induction pts as [|b pts IH]; intros st; cbn [fold_left map]; [reflexivity|]. rewrite IH. reflexivity. Qed.
Lemma add_area_sum n pts : forall q a, add_area n pts q a = q a + node_area n pts a.
Proof.
  unfold add_area, node_area. induction pts as [|b pts IH]; intros q a; cbn [fold_left]; [unfold lsum; cbn; lra|].
  rewrite IH, Sum_Proofs.lsum_cons. unfold bump. rewrite Nat.eqb_sym. destruct (Nat.eqb (s_nn b) a); lra.
Qed.
(** sum over ranks = sum over the surface *)
Lemma ranks_sum (F : spt -> R) g nr : length (a_pts g) = nr -> sumn nr (fun r => lsum F (rank_pts g r)) = lsum F (points g).
Proof.
  intros <-. unfold rank_pts, points. rewrite <- (Rad_Quad_Proofs3.lsum_map_seq (fun l => lsum F l) (fun r => nth r (a_pts g) [])).
  assert (E : map (fun r => nth r (a_pts g) []) (seq 0 (length (a_pts g))) = a_pts g).
  { apply (nth_ext _ _ [] []); rewrite map_length, seq_length; [reflexivity|]. intros k Hk.
    rewrite (nth_indep _ [] (nth 0 (a_pts g) [])) by (rewrite map_length, seq_length; exact Hk).
    rewrite (map_nth (fun r => nth r (a_pts g) []) _ 0%nat). rewrite seq_nth by exact Hk. reflexivity. }
  rewrite E. induction (a_pts g) as [|l ls IH]; [reflexivity|]. cbn [concat]. rewrite Sum_Proofs.lsum_app, Sum_Proofs.lsum_cons, IH by
   (cbn [length] in E; clear IH; cbn [seq map nth] in E; injection E; rewrite <- seq_shift, map_map; cbn; tauto). reflexivity.
Qed.
Lemma area_rank n wf a r algs : forall q, fold_left (fun q g => if Bool.eqb (a_wf g) wf then add_area n (rank_pts g r) q else q) algs q a
  = q a + lsum (fun g => if Bool.eqb (a_wf g) wf then node_area n (rank_pts g r) a else 0) algs.
Proof.
  induction algs as [|g algs IH]; intros q; cbn [fold_left]; [unfold lsum; cbn; lra|]. rewrite IH, Sum_Proofs.lsum_cons.
  destruct (Bool.eqb (a_wf g) wf); [rewrite add_area_sum|]; lra.
Qed.
Lemma sumn_lsum_swap {A} n (F : nat -> A -> R) l : sumn n (fun r => lsum (F r) l) = lsum (fun x => sumn n (fun r => F r x)) l.
Proof.
  induction l as [|x l IH]; [apply sumn_zero; reflexivity|]. rewrite Sum_Proofs.lsum_cons, <- IH, <- sumn_plus. apply sumn_ext. reflexivity.
Qed.
Lemma lsum_kind (F : spt -> R) algs wf : lsum (fun g => if Bool.eqb (a_wf g) wf then lsum F (points g) else 0) algs = lsum F (kind_points algs wf).
Proof.
  unfold kind_points. rewrite Geom_Props.lsum_flat. induction algs as [|g algs IH]; [reflexivity|]. cbn [filter].
  rewrite Sum_Proofs.lsum_cons. destruct (Bool.eqb (a_wf g) wf); [rewrite Sum_Proofs.lsum_cons|]; rewrite IH; lra.
Qed.
Lemma area_of_sum n nr algs wf a : (forall g, In g algs -> length (a_pts g) = nr) ->
  area_of n nr algs wf a = node_area n (kind_points algs wf) a.
Proof.
  intros HL. unfold area_of. rewrite (sumn_ext nr _ (fun r => lsum (fun g => if Bool.eqb (a_wf g) wf then node_area n (rank_pts g r) a else 0) algs))
    by (intros; rewrite area_rank; lra).
  rewrite (sumn_lsum_swap nr (fun r g => if Bool.eqb (a_wf g) wf then node_area n (rank_pts g r) a else 0)).
  unfold node_area at 2. rewrite <- lsum_kind. apply lsum_ext. intros g Hg. destruct (Bool.eqb (a_wf g) wf); [|apply sumn_zero; reflexivity].
  unfold node_area. apply ranks_sum. auto.
Qed.

(** nodal fields of one rank *)
Lemma rank_fields_pf n nr incl kappa f algs r a i : (i < n)%nat ->
  fst (fst (rank_fields n nr incl kappa f algs r)) a i
  = lsum (fun g => lsum (fun b => if Nat.eqb (s_nn b) a then k_pf (kern n incl kappa f g b) i else 0) (rank_pts g r)) algs.
Proof.
  intros Hi. unfold rank_fields.
  assert (G : forall l (st : (nat -> nat -> R) * (nat -> R) * (nat -> R)), fst (fst (fold_left (fun st g => let a := run_rank n nr incl kappa f algs g r (fst (fst st)) (snd (fst st)) (snd st) in
      (n_pf a, n_tau a, n_yp a)) l st)) a i = fst (fst st) a i + lsum (fun g => lsum (fun b => if Nat.eqb (s_nn b) a then k_pf (kern n incl kappa f g b) i else 0) (rank_pts g r)) l).
  { induction l as [|g l IH]; intros st; cbn [fold_left]; [unfold lsum; cbn; lra|]. rewrite IH, Sum_Proofs.lsum_cons. cbn [fst snd]. unfold run_rank.
    rewrite visit_pf by exact Hi. cbn [n_pf]. lra. }
  rewrite G. cbn [fst snd]. lra.
Qed.
Lemma rank_fields_tau n nr incl kappa f algs r a :
  snd (fst (rank_fields n nr incl kappa f algs r)) a
  = lsum (fun g => lsum (fun b => if Nat.eqb (s_nn b) a then k_tau (kern n incl kappa f g b) * (k_am (kern n incl kappa f g b)/area_of n nr algs (a_wf g) a) else 0) (rank_pts g r)) algs.
Proof.
  unfold rank_fields.
  assert (G : forall l (st : (nat -> nat -> R) * (nat -> R) * (nat -> R)), snd (fst (fold_left (fun st g => let a := run_rank n nr incl kappa f algs g r (fst (fst st)) (snd (fst st)) (snd st) in
      (n_pf a, n_tau a, n_yp a)) l st)) a = snd (fst st) a + lsum (fun g => lsum (fun b => if Nat.eqb (s_nn b) a then k_tau (kern n incl kappa f g b) * (k_am (kern n incl kappa f g b)/area_of n nr algs (a_wf g) a) else 0) (rank_pts g r)) l).
  { induction l as [|g l IH]; intros st; cbn [fold_left]; [unfold lsum; cbn; lra|]. rewrite IH, Sum_Proofs.lsum_cons. cbn [fst snd]. unfold run_rank.
    rewrite visit_tau. cbn [n_tau]. lra. }
  rewrite G. cbn [fst snd]. lra.
Qed.
Lemma rank_fields_yp n nr incl kappa f algs r a :
  snd (rank_fields n nr incl kappa f algs r) a
  = lsum (fun g => lsum (fun b => if Nat.eqb (s_nn b) a then k_yplus (kern n incl kappa f g b) * (k_am (kern n incl kappa f g b)/area_of n nr algs (a_wf g) a) else 0) (rank_pts g r)) algs.
Proof.
  unfold rank_fields.
  assert (G : forall l (st : (nat -> nat -> R) * (nat -> R) * (nat -> R)), snd (fold_left (fun st g => let a := run_rank n nr incl kappa f algs g r (fst (fst st)) (snd (fst st)) (snd st) in
      (n_pf a, n_tau a, n_yp a)) l st) a = snd st a + lsum (fun g => lsum (fun b => if Nat.eqb (s_nn b) a then k_yplus (kern n incl kappa f g b) * (k_am (kern n incl kappa f g b)/area_of n nr algs (a_wf g) a) else 0) (rank_pts g r)) l).
  { induction l as [|g l IH]; intros st; cbn [fold_left]; [unfold lsum; cbn; lra|]. rewrite IH, Sum_Proofs.lsum_cons. cbn [fst snd]. unfold run_rank.
    rewrite visit_yp. cbn [n_yp]. lra. }
  rewrite G. cbn [fst snd]. lra.
Qed.
Lemma kern_am n incl kappa f g b : k_am (kern n incl kappa f g b) = amag n (s_A b).
Proof. unfold kern. destruct (a_wf g); reflexivity. Qed.
Lemma kern_pf n incl kappa f g b i : (i < n)%nat -> k_pf (kern n incl kappa f g b) i = p_force f b i.
Proof. intros Hi. apply Nat.ltb_lt in Hi. unfold kern, p_force. destruct (a_wf g); cbn [resolved modelled k_pf]; unfold resolved, modelled; cbn [k_pf]; unfold pad; rewrite Hi, ipol_at; reflexivity. Qed.
Lemma slip_tan n f b m i : (i < n)%nat ->
  tanv n m (fun j => ipol b (fun a => q_u f a j)) i - tanv n m (fun j => ipol b (fun a => q_ubc f a j)) i = tangential_part n m (slip f b) i.
Proof.
  intros Hi. rewrite !tanv_proj by exact Hi. unfold tangential_part, normal_part, slip. rewrite !ipol_at.
  assert (E : dotp n m (fun k => at_pt b (fun a => q_u f a k) - at_pt b (fun a => q_ubc f a k)) = dotn n m (fun j => ipol b (fun a => q_u f a j)) - dotn n m (fun j => ipol b (fun a => q_ubc f a j))).
  { unfold dotp, dotn. rewrite <- sumn_minus. apply sumn_ext. intros. rewrite !ipol_at. ring. }
  change (dotp n m (fun i0 => at_pt b (fun a => q_u f a i0) - at_pt b (fun a => q_ubc f a i0))) with (dotp n m (fun k => at_pt b (fun a => q_u f a k) - at_pt b (fun a => q_ubc f a k))).
  rewrite E. ring.
Qed.
Lemma modelled_vf n kappa f b i : (i < n)%nat -> k_vf (modelled n kappa f b) i = wf_force n kappa f b i.
Proof.
  intros Hi. pose proof Hi as Hb. apply Nat.ltb_lt in Hb. unfold modelled. cbn [k_vf]. unfold pad. rewrite Hb.
  rewrite slip_tan by exact Hi. unfold wf_force, wlambda. cbv zeta. rewrite !ipol_at. reflexivity.
Qed.
Lemma resolved_vf n incl f b i : (i < n)%nat -> k_vf (resolved n incl f b) i = v_force n incl f b i.
Proof.
  intros Hi. pose proof Hi as Hb. apply Nat.ltb_lt in Hb. unfold resolved. cbn [k_vf]. unfold pad. rewrite Hb.
  rewrite fold_seq_add, ipol_at. unfold v_force, viscous_flux. 
  rewrite (sumn_ext n (fun j => - at_pt b (q_mu f) * (q_dudx f (s_nn b) i j + q_dudx f (s_nn b) j i) * s_A b j) (fun j => - at_pt b (q_mu f) * ((q_dudx f (s_nn b) i j + q_dudx f (s_nn b) j i) * s_A b j))) by (intros; ring).
  rewrite (sumn_scal n (- at_pt b (q_mu f))). ring.
Qed.
Lemma kern_force n incl kappa f g b i : (i < n)%nat ->
  k_pf (kern n incl kappa f g b) i + k_vf (kern n incl kappa f g b) i = force n incl kappa f g b i.
Proof.
  intros Hi. rewrite kern_pf by exact Hi. unfold force, kern. destruct (a_wf g); [rewrite modelled_vf by exact Hi|rewrite resolved_vf by exact Hi]; reflexivity.
Qed.
