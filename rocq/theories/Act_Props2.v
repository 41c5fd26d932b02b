(** C90: assembly over several points and ranks, matrix coefficient, best element, concrete cases. *)
Require Import Reals List Bool Lra Lia Arith.
From Verif Require Import RUtil Edge_Model Edge_Proofs Elem_Proofs Sum_Proofs Rad_Quad_Proofs3 Turb_Model Turb_Props Src_Model Act_Model Act_Props.
Import ListNotations.
Open Scope R_scope.

(** the source a user expects: the sum over the points near the node *)
Definition wanted (d : nat) (x : nat -> nat -> R) (pts : list apoint) (n j : nat) : R := lsum (fun p => if reaches p n then pshare d x p n j else 0) pts.
Lemma execute_sum d x ranks n j : fst (act_execute d x ranks) n j = lsum (fun pts => fst (act_rank d x pts) n j) ranks /\ snd (act_execute d x ranks) n j = lsum (fun pts => snd (act_rank d x pts) n j) ranks.
Proof. induction ranks as [|pts l [IH1 IH2]]; [split; reflexivity|]. unfold act_execute. cbn [fold_right fst snd]. fold (act_execute d x l). rewrite IH1, IH2. split; reflexivity. Qed.
(** it is delivered when no two points of one rank reach the same node *)
Theorem C90_source_of_separate_points : forall d x ranks n j, (j < d)%nat ->
  (forall pts, In pts ranks -> forall l1 p l2, pts = l1 ++ p :: l2 -> reaches p n = true -> forall q, In q l1 \/ In q l2 -> reaches q n = false) ->
  fst (act_execute d x ranks) n j = wanted d x (concat ranks) n j.
Proof.
  intros d x ranks n j Hj H. rewrite (proj1 (execute_sum d x ranks n j)). unfold wanted.
  induction ranks as [|pts l IH]; [reflexivity|]. cbn [concat]. rewrite lsum_app, lsum_cons. f_equal; [|apply IH; intros; eapply H; [right; eassumption|eassumption|assumption|assumption]].
  clear IH. assert (HP := H pts (or_introl eq_refl)). clear H.
  destruct (existsb (fun p => reaches p n) pts) eqn:E.
  - apply existsb_exists in E. destruct E as (p & Hp & Rp). apply in_split in Hp. destruct Hp as (l1 & l2 & ->).
    rewrite C90_last_point_wins by (try assumption; intros q Hq; apply (HP l1 p l2 eq_refl Rp q); right; assumption).
    rewrite lsum_app, lsum_cons, Rp. rewrite !lsum_zero; [ring| |]; intros q Hq; rewrite (HP l1 p l2 eq_refl Rp q) by tauto; reflexivity.
  - assert (F : forall q, In q pts -> reaches q n = false).
    { intros q Hq. destruct (reaches q n) eqn:R; [|reflexivity]. assert (existsb (fun p => reaches p n) pts = true) by (apply existsb_exists; exists q; split; assumption). congruence. }
    rewrite C90_unreached_node by assumption. rewrite lsum_zero; [reflexivity|]. intros q Hq. rewrite F by assumption. reflexivity.
Qed.
(** a still point at the origin of a 3-d gas moving along x, reaching node 0; one sub-volume *)
Definition ex_point (r : R) : apoint := mkAp (fun _ => 0) (fun _ => 0) r 1 [0%nat] (fun j => match j with 0%nat => 1 | _ => 0 end) 1 1 1 (fun _ => 0%nat) (fun _ => 1).
Lemma ex_share_pos r : 0 < r -> pshare 3 (fun _ _ => 0) (ex_point r) 0 0 < 0.
Proof.
  intros Hr. unfold pshare, pforce. cbn [a_r a_v a_u a_mu a_rho a_c a_eps ex_point]. set (u := fun j : nat => match j with 0%nat => 1 | _ => 0 end).
  destruct (C90_drag_opposes_slip 3 r (fun _ => 0) u 1 1 ltac:(lra) ltac:(lra) ltac:(lra)) as (E & K & _). rewrite E.
  assert (0 < 6*PI*1*r) by (pose proof PI_RGT_0; apply Rmult_lt_0_compat; [|assumption]; lra).
  destruct (C90_weight_decays 3 (act_radius 3 (fun _ => 0) (fun _ => 0)) (act_radius 3 (fun _ => 0) (fun _ => 0)) 1 ltac:(lra) ltac:(right; reflexivity)) as [W _]; [split; [apply sqrt_pos|lra]|].
  unfold u at 2. nra.
Qed.
(** two points at one node: the first one's force is lost *)
Theorem C90_overlapping_points_add_refuted : exists d x pts n j, (j < d)%nat /\ fst (act_execute d x [pts]) n j <> wanted d x pts n j.
Proof.
  exists 3%nat, (fun _ _ => 0), [ex_point 1; ex_point 2], 0%nat, 0%nat. split; [lia|]. rewrite (proj1 (execute_sum _ _ _ _ _)). unfold wanted, lsum. cbn [map fold_right reaches a_nodes ex_point existsb Nat.eqb orb].
  rewrite (C90_last_point_wins 3 (fun _ _ => 0) [ex_point 1] (ex_point 2) []) by (try reflexivity; try lia; intros q []).
  pose proof (ex_share_pos 1 ltac:(lra)). lra.
Qed.
(** and the result depends on how the machines are dealt to ranks *)
Theorem C90_independent_of_ranks_refuted : exists d x p q n j, fst (act_execute d x [[p; q]]) n j <> fst (act_execute d x [[p]; [q]]) n j.
Proof.
  exists 3%nat, (fun _ _ => 0), (ex_point 1), (ex_point 2), 0%nat, 0%nat. rewrite !(proj1 (execute_sum _ _ _ _ _)). unfold lsum. cbn [map fold_right].
  rewrite (C90_last_point_wins 3 (fun _ _ => 0) [ex_point 1] (ex_point 2) []) by (try reflexivity; try lia; intros q []).
  rewrite (C90_last_point_wins 3 (fun _ _ => 0) [] (ex_point 1) []) by (try reflexivity; try lia; intros q []).
  rewrite (C90_last_point_wins 3 (fun _ _ => 0) [] (ex_point 2) []) by (try reflexivity; try lia; intros q []).
  pose proof (ex_share_pos 1 ltac:(lra)). lra.
Qed.

(* ------------------------------------------------------------------ matrix coefficient *)
Definition pl (d : nat) (p : apoint) : R := point_lhs d (a_r p) (a_v p) (a_u p) (a_mu p) (a_rho p).
Lemma best_lhs_at d p L n j : (j < d)%nat ->
  best_lhs d p L n j = L n j + sumn (a_nscv p) (fun ip => if Nat.eqb n (a_near p ip) then a_vol p ip / sumn (a_nscv p) (a_vol p) * pl d p else 0).
Proof.
  intros Hj. unfold best_lhs. cbv zeta. fold (pl d p). set (V := sumn (a_nscv p) (a_vol p)).
  assert (G : forall l L, fold_left (fun L ip n j => if Nat.eqb n (a_near p ip) && Nat.ltb j d then L n j + a_vol p ip/V*pl d p else L n j) l L n j
     = L n j + lsum (fun ip => if Nat.eqb n (a_near p ip) then a_vol p ip/V*pl d p else 0) l).
  { induction l as [|k l IH]; intros L0; [unfold lsum; cbn; ring|]. cbn [fold_left]. rewrite IH, lsum_cons. destruct (Nat.ltb_spec j d); [|lia]. rewrite andb_true_r. destruct (Nat.eqb _ _); ring. }
  rewrite G. f_equal. rewrite <- (map_id (seq 0 (a_nscv p))). rewrite (lsum_map_seq (fun ip => if Nat.eqb n (a_near p ip) then a_vol p ip/V*pl d p else 0) (fun k => k)). reflexivity.
Qed.
Lemma rank_lhs d x pts n j : (j < d)%nat ->
  snd (act_rank d x pts) n j = lsum (fun p => sumn (a_nscv p) (fun ip => if Nat.eqb n (a_near p ip) then a_vol p ip / sumn (a_nscv p) (a_vol p) * pl d p else 0)) pts.
Proof.
  intros Hj. rewrite (proj2 (act_rank_split d x pts)). assert (G : forall l L, fold_left (fun L p => best_lhs d p L) l L n j
    = L n j + lsum (fun p => sumn (a_nscv p) (fun ip => if Nat.eqb n (a_near p ip) then a_vol p ip / sumn (a_nscv p) (a_vol p) * pl d p else 0)) l).
  { induction l as [|p l IH]; intros L; [unfold lsum; cbn; ring|]. cbn [fold_left]. rewrite IH, best_lhs_at, lsum_cons by assumption. ring. }
  rewrite G. ring.
Qed.
(** over the mesh every point contributes exactly its drag coefficient to each diagonal, however the points are dealt to ranks *)
Theorem C90_matrix_total : forall d x ranks j N, (j < d)%nat ->
  (forall p, In p (concat ranks) -> sumn (a_nscv p) (a_vol p) <> 0 /\ forall ip, (ip < a_nscv p)%nat -> (a_near p ip < N)%nat) ->
  sumn N (fun n => snd (act_execute d x ranks) n j) = lsum (pl d) (concat ranks).
Proof.
  intros d x ranks j N Hj H. rewrite (sumn_ext N _ (fun n => lsum (fun p => sumn (a_nscv p) (fun ip => if Nat.eqb n (a_near p ip) then a_vol p ip / sumn (a_nscv p) (a_vol p) * pl d p else 0)) (concat ranks))).
  - revert H. generalize (concat ranks). clear ranks. induction l as [|p l IH]; intros H; [unfold lsum; cbn; apply sumn_zero; reflexivity|].
    rewrite (sumn_ext N _ (fun n => sumn (a_nscv p) (fun ip => if Nat.eqb n (a_near p ip) then a_vol p ip / sumn (a_nscv p) (a_vol p) * pl d p else 0) + lsum (fun p => sumn (a_nscv p) (fun ip => if Nat.eqb n (a_near p ip) then a_vol p ip / sumn (a_nscv p) (a_vol p) * pl d p else 0)) l)) by (intros; rewrite lsum_cons; reflexivity).
    rewrite sumn_plus, lsum_cons, IH by (intros; apply H; right; assumption). f_equal. destruct (H p (or_introl eq_refl)) as [HV HN].
    rewrite sumn_swap. rewrite (sumn_ext (a_nscv p) _ (fun ip => (pl d p / sumn (a_nscv p) (a_vol p)) * a_vol p ip)).
    + rewrite sumn_scal. field. assumption.
    + intros ip Hip. rewrite (sumn_ext N _ (fun n => dl n (a_near p ip) * (a_vol p ip / sumn (a_nscv p) (a_vol p) * pl d p))) by (intros; unfold dl; destruct (Nat.eqb _ _); ring).
      rewrite (sumn_dl N (a_near p ip) (fun _ => a_vol p ip / sumn (a_nscv p) (a_vol p) * pl d p)) by (apply HN; assumption). unfold Rdiv. ring.
  - intros n _. rewrite (proj2 (execute_sum d x ranks n j)). clear H. induction ranks as [|pts l IH]; [reflexivity|]. cbn [concat]. rewrite lsum_app, lsum_cons, IH, rank_lhs by assumption. reflexivity.
Qed.
Theorem C90_matrix_nonneg : forall d x ranks n j, (j < d)%nat ->
  (forall p, In p (concat ranks) -> 0 <= a_r p /\ 0 < a_mu p /\ 0 <= a_rho p /\ forall ip, (ip < a_nscv p)%nat -> 0 < a_vol p ip) -> 0 <= snd (act_execute d x ranks) n j.
Proof.
  intros d x ranks n j Hj H. rewrite (proj2 (execute_sum d x ranks n j)). induction ranks as [|pts l IH]; [unfold lsum; cbn; lra|]. rewrite lsum_cons.
  assert (0 <= lsum (fun pts => snd (act_rank d x pts) n j) l) by (apply IH; intros; apply H; cbn [concat]; apply in_or_app; right; assumption).
  assert (0 <= snd (act_rank d x pts) n j); [|lra]. rewrite rank_lhs by assumption.
  assert (K : forall p, In p pts -> 0 <= sumn (a_nscv p) (fun ip => if Nat.eqb n (a_near p ip) then a_vol p ip / sumn (a_nscv p) (a_vol p) * pl d p else 0)).
  { intros p Hp. destruct (H p) as (Hr & Hm & Hd & Hv); [cbn [concat]; apply in_or_app; left; assumption|]. apply sumn_nonneg. intros ip Hip. destruct (Nat.eqb _ _); [|lra].
    destruct (C90_drag_opposes_slip d (a_r p) (a_v p) (a_u p) (a_mu p) (a_rho p) Hr Hm Hd) as (_ & K & _). pose proof (stokes_nonneg (a_mu p) (a_r p) Hm Hr).
    assert (PV : 0 < sumn (a_nscv p) (a_vol p)).
    { clear - Hv Hip. assert (0 <= sumn (a_nscv p) (a_vol p) - a_vol p ip).
      { rewrite <- (sumn_dl (a_nscv p) ip (a_vol p)) by assumption. rewrite <- sumn_minus. apply sumn_nonneg. intros k Hk. pose proof (Hv k Hk). unfold dl. destruct (Nat.eqb _ _); lra. }
      pose proof (Hv ip Hip). lra. }
    apply Rmult_le_pos; [|unfold pl; lra]. apply Rmult_le_pos; [left; apply Hv; assumption|left; apply Rinv_0_lt_compat; assumption]. }
  clear - K. induction pts as [|p l IH]; [unfold lsum; cbn; lra|]. rewrite lsum_cons. pose proof (K p (or_introl eq_refl)). assert (0 <= lsum (fun p => sumn (a_nscv p) (fun ip => if Nat.eqb n (a_near p ip) then a_vol p ip / sumn (a_nscv p) (a_vol p) * pl d p else 0)) l) by (apply IH; intros; apply K; right; assumption). lra.
Qed.

(* ------------------------------------------------------------------ best element *)
Theorem C90_best_element_nearest : forall cands,
  (best_elem cands = (10^16, None) /\ (forall c, In c cands -> 10^16 <= fst c)) \/
  (exists l1 c l2, cands = l1 ++ c :: l2 /\ best_elem cands = (fst c, Some (snd c)) /\ fst c < 10^16 /\ (forall e, In e cands -> fst c <= fst e) /\ forall e, In e l1 -> fst c < fst e).
Proof.
  intros cands. unfold best_elem. generalize (10^16). intros B.
  assert (G : forall l, let r := fold_left (fun st c => if Rlt_dec (fst c) (fst st) then (fst c, Some (snd c)) else st) l (B, None) in
    (r = (B, None) /\ (forall c, In c l -> B <= fst c)) \/
    (exists l1 (c : R*nat) l2, l = l1 ++ c :: l2 /\ r = (fst c, Some (snd c)) /\ fst c < B /\ (forall e, In e l -> fst c <= fst e) /\ forall e, In e l1 -> fst c < fst e)).
  { induction l as [|e l IH] using rev_ind; cbv zeta; [left; split; [reflexivity|intros c []]|]. rewrite fold_left_app. cbn [fold_left].
    destruct IH as [(E & H)|(l1 & c & l2 & El & E & Hc & Hm & Hf)]; rewrite E; cbn [fst snd].
    - destruct (Rlt_dec (fst e) B) as [L|N].
      + right. exists l, e, []. split; [reflexivity|]. split; [reflexivity|]. split; [assumption|]. split.
        * intros y Hy. apply in_app_iff in Hy. destruct Hy as [Hy|[<-|[]]]; [pose proof (H y Hy); lra|lra].
        * intros y Hy. pose proof (H y Hy). lra.
      + left. split; [reflexivity|]. intros y Hy. apply in_app_iff in Hy. destruct Hy as [Hy|[<-|[]]]; [apply H; assumption|lra].
    - right. destruct (Rlt_dec (fst e) (fst c)) as [L|N].
      + exists l, e, []. split; [reflexivity|]. split; [reflexivity|]. split; [lra|]. split.
        * intros y Hy. apply in_app_iff in Hy. destruct Hy as [Hy|[<-|[]]]; [pose proof (Hm y Hy); lra|lra].
        * intros y Hy. pose proof (Hm y Hy). lra.
      + exists l1, c, (l2 ++ [e]). split; [rewrite El, <- app_assoc; reflexivity|]. split; [reflexivity|]. split; [assumption|]. split; [|assumption].
        intros y Hy. apply in_app_iff in Hy. destruct Hy as [Hy|[<-|[]]]; [apply Hm; assumption|lra]. }
  apply G.
Qed.
Theorem C90_reached_nodes : forall conn cands n, In n (node_set conn cands) <-> exists c, In c cands /\ In n (conn (snd c)).
Proof. intros. unfold node_set. rewrite nodup_In, in_flat_map. reflexivity. Qed.
Theorem C90_example : reaches (ex_point 1) 0 = true /\ sumn 1 (a_vol (ex_point 1)) = 1 /\
  fst (act_execute 3 (fun _ _ => 0) [[ex_point 1]]) 0%nat 0%nat = wanted 3 (fun _ _ => 0) [ex_point 1] 0 0 /\ best_elem [(2, 7%nat); (1, 8%nat); (1, 9%nat)] = (1, Some 8%nat).
Proof.
  split; [reflexivity|]. split; [unfold sumn; cbn; lra|]. split.
  - apply (C90_source_of_separate_points 3 (fun _ _ => 0) [[ex_point 1]]); [lia|]. intros pts [<-|[]] l1 p l2 E _ q Hq. destruct l1 as [|a [|b l1]]; inversion E; subst; destruct Hq as [[]|[]].
  - unfold best_elem. cbn [fold_left fst snd]. assert (2 < 10^16) by lra. destruct (Rlt_dec 2 (10^16)); [|contradiction]. cbn [fst]. destruct (Rlt_dec 1 2); [|lra]. cbn [fst]. destruct (Rlt_dec 1 1); [lra|reflexivity].
Qed.
