(** C80, fine search, search distance and ghosting. *)
Require Import Reals List Bool Arith Lra Lia Permutation.
From Verif Require Import NCS_Model NCS_Props.
Import ListNotations.
Open Scope R_scope.

(* ------------------------------------------------------------------ specification *)
(** face f was offered to Gauss point pt of this rank *)
Definition offered (rank pt : nat) (pairs : list found) (f : nat) : Prop := exists bp, In ((pt, rank), (f, bp)) pairs.
(** d's face is an offered one at the smallest parametric distance *)
Definition best_face (rank pt : nat) (dist : nat -> R * R) (pairs : list found) (d : dinfo) : Prop :=
  exists f, opposing d = Some f /\ offered rank pt pairs f /\ bestX d = fst (dist f) /\ forall f', offered rank pt pairs f' -> fst (dist f) <= fst (dist f').

Lemma range_in pt pairs p : In p (range pt (sort found_id_lt pairs)) <-> In p pairs /\ fst (fst p) = pt.
Proof.
  unfold range. rewrite filter_In, Nat.eqb_eq. split; intros [H1 H2]; (split; [|exact H2]); [|apply Permutation_sym in H1 || idtac].
  - apply Permutation_in with (sort found_id_lt pairs); [apply sort_perm|exact H1].
  - apply Permutation_in with pairs; [apply Permutation_sym, sort_perm|exact H1].
Qed.
Definition mine (rank : nat) (p : found) : bool := (snd (fst p) =? rank)%nat.
Lemma fold_best dyn rank dist saved l : forall nd d, let d' := snd (fold_left (search_step dyn rank dist saved) l (nd, d)) in
  bestX d' <= bestX d /\
  (forall p, In p l -> mine rank p = true -> bestX d' <= fst (dist (fst (snd p)))) /\
  ((opposing d' = opposing d /\ bestX d' = bestX d /\ nearest d' = nearest d) \/ exists p, In p l /\ mine rank p = true /\ opposing d' = Some (fst (snd p)) /\ bestX d' = fst (dist (fst (snd p))) /\ bestX d' < bestX d).
Proof.
  induction l as [|p l IH]; intros nd d; cbn [fold_left].
  - cbn. split; [lra|]. split; [intros q []|]. left. auto.
  - cbv zeta. remember (search_step dyn rank dist saved (nd, d) p) as st eqn:Est. destruct st as [nd1 d1].
    specialize (IH nd1 d1). cbv zeta in IH. destruct IH as (I1 & I2 & I3).
    unfold search_step in Est. fold (mine rank p) in Est. destruct (mine rank p) eqn:M.
    + destruct (Rlt_dec (fst (dist (fst (snd p)))) (bestX d)) as [L|L].
      * inversion Est; subst nd1 d1. cbn [bestX opposing] in *. split; [lra|]. split.
        -- intros q [<-|Hq] Mq; [lra|auto].
        -- destruct I3 as [(E1 & E2 & E3)|(q & H1 & H2 & H3 & H4 & H5)].
           ++ right. exists p. rewrite E1, E2. repeat split; auto. left; reflexivity.
           ++ right. exists q. repeat split; auto; [right; exact H1|lra].
      * inversion Est; subst nd1 d1. split; [exact I1|]. split.
        -- intros q [<-|Hq] Mq; [lra|auto].
        -- destruct I3 as [E|(q & H1 & H2)]; [left; exact E|right; exists q; split; [right; exact H1|exact H2]].
    + inversion Est; subst nd1 d1. split; [exact I1|]. split.
      * intros q [<-|Hq] Mq; [congruence|auto].
      * destruct I3 as [E|(q & H1 & H2)]; [left; exact E|right; exists q; split; [right; exact H1|exact H2]].
Qed.
(** whenever some face is offered (at a parametric distance below 1e16), the point gets an offered face of smallest parametric distance,
    whatever it had before and whatever the order of the search results *)
Theorem C80_best_opposing_face dyn big rank pt dist pairs d : (exists f, offered rank pt pairs f /\ fst (dist f) < 10^16) ->
  exists d', complete_point dyn big rank pt dist pairs d = Some d' /\ best_face rank pt dist pairs d'.
Proof.
  intros (f & (bp & Hf) & Lf). unfold complete_point. set (d0 := mkD (opposing d) bestXRef (nearest d)).
  assert (Hin : In ((pt, rank), (f, bp)) (range pt (sort found_id_lt pairs))) by (apply range_in; auto).
  pose proof (fold_best dyn rank dist (nearest d0) (range pt (sort found_id_lt pairs)) big d0) as H. cbv zeta in H. destruct H as (H1 & H2 & H3).
  remember (range pt (sort found_id_lt pairs)) as l eqn:El. destruct l as [|p0 l0]; [destruct Hin|]. rewrite El in *.
  eexists. split; [reflexivity|].
  assert (M0 : mine rank ((pt, rank), (f, bp)) = true) by (unfold mine; cbn; apply Nat.eqb_refl).
  destruct H3 as [(E1 & E2 & _)|(p & K1 & K2 & K3 & K4 & _)].
  - exfalso. specialize (H2 _ Hin M0). cbn [fst snd] in H2. rewrite E2 in H2. cbn [bestX d0] in H2. unfold bestXRef in H2. lra.
  - exists (fst (snd p)). split; [exact K3|]. apply range_in in K1. destruct K1 as [K1 K5]. unfold mine in K2. apply Nat.eqb_eq in K2.
    destruct p as [[a b] [c e]]. cbn [fst snd] in *. subst a b. split; [exists e; exact K1|]. split; [exact K4|].
    intros f' (bp' & Hf'). assert (Hin' : In ((pt, rank), (f', bp')) (range pt (sort found_id_lt pairs))) by (apply range_in; auto).
    assert (M1 : mine rank ((pt, rank), (f', bp')) = true) by (unfold mine; cbn; apply Nat.eqb_refl).
    specialize (H2 _ Hin' M1). cbn [fst snd] in H2. rewrite K4 in H2. exact H2.
Qed.
(** so two runs that offer the same faces in a different order (another decomposition, another search) agree on the distance reached, and on the
    face if it is unique *)
Theorem C80_result_independent_of_order dyn dyn' big rank rank' pt pt' dist pairs pairs' d d0 e e0 :
  (forall f, offered rank pt pairs f <-> offered rank' pt' pairs' f) -> (exists f, offered rank pt pairs f /\ fst (dist f) < 10^16) ->
  complete_point dyn big rank pt dist pairs d = Some e -> complete_point dyn' big rank' pt' dist pairs' d0 = Some e0 ->
  bestX e = bestX e0 /\ ((forall f f', offered rank pt pairs f -> offered rank pt pairs f' -> fst (dist f) = fst (dist f') -> f = f') -> opposing e = opposing e0).
Proof.
  intros Heq Hex E1 E2. destruct (C80_best_opposing_face dyn big rank pt dist pairs d Hex) as (x & X1 & f & X2 & X3 & X4 & X5).
  assert (Hex' : exists f, offered rank' pt' pairs' f /\ fst (dist f) < 10^16) by (destruct Hex as (g & G1 & G2); exists g; split; [apply Heq, G1|exact G2]).
  destruct (C80_best_opposing_face dyn' big rank' pt' dist pairs' d0 Hex') as (y & Y1 & g & Y2 & Y3 & Y4 & Y5).
  rewrite E1 in X1. inversion X1; subst x. rewrite E2 in Y1. inversion Y1; subst y.
  pose proof (X5 g (proj2 (Heq g) Y3)). pose proof (Y5 f (proj1 (Heq f) X3)). split; [lra|].
  intros U. rewrite X2, Y2. f_equal. apply U; [exact X3|apply Heq, Y3|lra].
Qed.
(** on one rank a point without candidates stops the run *)
Theorem C80_unmatched_point_stops_serial_run dyn big rank pt dist pairs d : (forall p, In p pairs -> snd (fst p) = rank) ->
  (forall f, ~ offered rank pt pairs f) -> complete_point dyn big rank pt dist pairs d = None.
Proof.
  intros H1 H2. unfold complete_point. destruct (range pt (sort found_id_lt pairs)) as [|p l] eqn:E; [reflexivity|exfalso].
  assert (Hp : In p (range pt (sort found_id_lt pairs))) by (rewrite E; left; reflexivity). apply range_in in Hp. destruct Hp as [Hp Ep].
  destruct p as [[a b] [c e]]. cbn in Ep. subst a. specialize (H1 _ Hp). cbn in H1. subst b. apply (H2 c). exists e. exact Hp.
Qed.
(** in parallel it may go unnoticed: a result of another rank's point with the same local number, in whose search this rank owned the box, hides it;
    the point silently keeps the face of an earlier search *)
Theorem C80_unmatched_point_reported_refuted : exists dyn big rank pt dist pairs d,
  (forall f, ~ offered rank pt pairs f) /\ (forall p, In p pairs -> snd (fst p) = rank \/ snd (snd p) = rank) /\
  complete_point dyn big rank pt dist pairs d <> None /\ (forall d', complete_point dyn big rank pt dist pairs d = Some d' -> opposing d' = opposing d /\ opposing d <> None).
Proof.
  exists false, 1, 0%nat, 5%nat, (fun _ => (0, 0)), [((5, 1), (77, 0))]%nat, (mkD (Some 42%nat) 0 1).
  split; [intros f (bp & [H|[]]); discriminate|]. split; [intros p [<-|[]]; right; reflexivity|]. split; [cbn; discriminate|].
  intros d' H. cbn in H. inversion H. split; [reflexivity|discriminate].
Qed.
(** with the dynamic tolerance no point is left out on any rank: after a successful repeated search the fine search of every point has a candidate *)
Theorem C80_dynamic_search_matches_every_point P hit boxes coarse spheres pairs' big dist d :
  search_ok P hit boxes coarse -> (forall r, (r < P)%nat -> points_ok r (spheres r)) -> all_search P coarse true spheres = Some pairs' ->
  (forall f, fst (dist f) < 10^16) ->
  forall r x, (r < P)%nat -> In x (spheres r) -> exists d', complete_point true big r (fst (snd x)) dist (pairs' r) d = Some d' /\ best_face r (fst (snd x)) dist (pairs' r) d'.
Proof.
  intros Hc Hs Ha Hd r x Hr Hx. apply C80_best_opposing_face. destruct (C80_repeated_search_complete P hit boxes coarse Hc spheres Hs pairs' Ha r x Hr Hx) as ([bf bp] & Hb).
  exists bf. split; [|apply Hd]. exists bp. pose proof (proj1 (Hs r Hr) x Hx) as Er. destruct x as [rad [i pr]]. cbn [fst snd] in *. subst pr. exact Hb.
Qed.

(** *** search distance *)
(** one face at distance delta from the point, offered at every step: the stored distance is at least delta and tends to it *)
Fixpoint steps (big : R) (rank pt : nat) (dist : nat -> R * R) (pairs : list found) (n : nat) (d : dinfo) : option dinfo :=
  match n with O => Some d | S n => match complete_point true big rank pt dist pairs d with Some d' => steps big rank pt dist pairs n d' | None => None end end.
Theorem C80_search_distance_follows big rank pt f bp dist d n : fst (dist f) < 10^16 -> snd (dist f) <= big -> 0 <= snd (dist f) ->
  exists d', steps big rank pt dist [((pt, rank), (f, bp))] n d = Some d' /\
   (nearest d >= snd (dist f) -> nearest d' = snd (dist f) + 0.8^n * (nearest d - snd (dist f))) /\ ((1 <= n)%nat -> snd (dist f) <= nearest d').
Proof.
  intros H1 H2 H3. set (dl := snd (dist f)) in *.
  assert (St : forall d, exists d', complete_point true big rank pt dist [((pt, rank), (f, bp))] d = Some d' /\ nearest d' = if Rlt_dec dl (nearest d) then 0.8*nearest d + (1 - 0.8)*dl else dl).
  { intro d1. unfold complete_point, sort, range. cbn [fold_right insert filter fst snd]. rewrite Nat.eqb_refl. cbn [fold_left]. unfold search_step. cbn [fst snd bestX nearest]. rewrite Nat.eqb_refl.
    destruct (Rlt_dec (fst (dist f)) bestXRef) as [L|L]; [|unfold bestXRef in L; lra]. eexists. split; [reflexivity|]. cbn [snd nearest]. rewrite Rmin_right by exact H2. reflexivity. }
  revert d. induction n as [|n IH]; intros d.
  - exists d. split; [reflexivity|]. split; [intros _; cbn; ring|lia].
  - destruct (St d) as (d1 & E1 & N1). cbn [steps]. rewrite E1. destruct (IH d1) as (d' & E' & Q1 & Q2). exists d'. split; [exact E'|].
    assert (G : dl <= nearest d1) by (rewrite N1; destruct (Rlt_dec dl (nearest d)); lra). split.
    + intros Hge. rewrite Q1 by lra. rewrite N1. destruct (Rlt_dec dl (nearest d)); [cbn [pow]; ring|]. assert (nearest d = dl) by lra. rewrite H. cbn [pow]. ring.
    + intros _. rewrite Q1 by lra. assert (0 <= 0.8^n) by (apply pow_le; lra). assert (0 <= 0.8^n * (nearest d1 - dl)) by (apply Rmult_le_pos; lra). lra.
Qed.
(** with several candidates the stored distance can end below the distance of the chosen face *)
Theorem C80_search_distance_covers_face_refuted : exists big rank pt dist pairs d d' f,
  complete_point true big rank pt dist pairs d = Some d' /\ opposing d' = Some f /\ 2 * nearest d' < snd (dist f) /\ 0 < nearest d.
Proof.
  exists 1000, 0%nat, 0%nat, (fun f => match f with 0%nat => (3, 50) | _ => (2, 20) end), [((0, 0), (1, 0)); ((0, 0), (0, 0))]%nat, (mkD None 0 1), (mkD (Some 1%nat) 2 (0.8*1 + (1 - 0.8)*20)), 1%nat.
  split; [|split; [reflexivity|split; cbn; lra]].
  unfold complete_point. cbn [sort fold_right insert found_id_lt fst snd Nat.ltb Nat.leb range filter Nat.eqb fold_left search_step bestX nearest]. unfold bestXRef.
  destruct (Rlt_dec 3 (10^16)); [|lra]. cbn [bestX nearest]. rewrite (Rmin_right 1000 50) by lra. destruct (Rlt_dec 50 1); [lra|]. unfold search_step. cbn [bestX nearest fst snd Nat.eqb].
  destruct (Rlt_dec 2 3); [|lra]. cbn [bestX nearest fst snd]. rewrite (Rmin_right 50 20) by lra. destruct (Rlt_dec 20 50); [|lra]. reflexivity.
Qed.

(** *** ghosting *)
Lemma bsearch_spec l x : bsearch l x = true <-> In x l.
Proof. unfold bsearch. rewrite existsb_exists. split; [intros (y & H & E); apply key_eq_spec in E; subst; exact H|intros H; exists x; split; [exact H|apply key_eq_spec; reflexivity]]. Qed.
(** what one rank adds is what it wants and does not have, once; what it takes back is what it has and does not want *)
Theorem C80_ghost_lists_exact want cur : let (add, rem) := precise_lists want cur in
  (forall x, In x add <-> In x want /\ ~ In x cur) /\ (forall x, In x rem <-> In x cur /\ ~ In x want) /\ NoDup add /\ NoDup rem.
Proof.
  unfold precise_lists. set (c := sort_and_unique cur). set (w := sort_and_unique want). set (i := set_intersection key_lt c w).
  assert (Hc : forall x, In x c <-> In x cur) by (intro; apply sort_unique_in).
  assert (Hw : forall x, In x w <-> In x want) by (intro; apply sort_unique_in).
  assert (Hi : forall x, In x i <-> In x cur /\ In x want).
  { intro x. unfold i. rewrite set_intersection_in; [rewrite Hc, Hw; reflexivity|apply sort_unique_strict|apply sort_unique_strict]. }
  assert (Hk : keep_not_ghosted i w = filter (fun x => negb (bsearch i x)) w).
  { unfold keep_not_ghosted. destruct i as [|y t]; [|reflexivity]. clear. induction w as [|h t IH]; [reflexivity|]. cbn. f_equal. exact IH. }
  rewrite Hk. unfold sends_to_remove. split; [|split; [|split]].
  - intro x. rewrite filter_In, Hw, negb_true_iff, <- not_true_iff_false, bsearch_spec, Hi. tauto.
  - intro x. rewrite filter_In, Hc, negb_true_iff, <- not_true_iff_false, bsearch_spec, Hi. tauto.
  - apply NoDup_filter, strict_nodup, sort_unique_strict.
  - apply NoDup_filter, strict_nodup, sort_unique_strict.
Qed.
(** after the change every rank holds exactly the ghosts the searches of this step ask for, whatever was ghosted before; elements are owned by one
    rank and never sent to their owner *)
Theorem C80_ghosts_are_exactly_those_needed P own want cur : (forall p e q, (p < P)%nat -> In (e, q) (want p) \/ In (e, q) (cur p) -> own e = p /\ q <> p) ->
  forall p e q, (p < P)%nat -> (q < P)%nat ->
  (held_after P (fun p => fst (precise_lists (want p) (cur p))) cur (recv_to_remove P (fun p => snd (precise_lists (want p) (cur p)))) p e q <-> In (e, q) (want p)).
Proof.
  intros Hown p e q Hp Hq. unfold held_after.
  assert (Hadd : forall p x, In x (fst (precise_lists (want p) (cur p))) <-> In x (want p) /\ ~ In x (cur p)).
  { intros p' x. pose proof (C80_ghost_lists_exact (want p') (cur p')) as H. destruct (precise_lists (want p') (cur p')) as [a r]. apply H. }
  assert (Hrem : forall p x, In x (snd (precise_lists (want p) (cur p))) <-> In x (cur p) /\ ~ In x (want p)).
  { intros p' x. pose proof (C80_ghost_lists_exact (want p') (cur p')) as H. destruct (precise_lists (want p') (cur p')) as [a r]. apply H. }
  rewrite Hadd.
  assert (Hrecv : In (e, q) (cur p) -> (In e (recv_to_remove P (fun p => snd (precise_lists (want p) (cur p))) q) <-> ~ In (e, q) (want p))).
  { intros Hcur. destruct (Hown p e q Hp (or_intror Hcur)) as [Oe Nq]. unfold recv_to_remove. rewrite in_flat_map. split.
    - intros (p' & Hp' & H). apply in_seq in Hp'. destruct (Nat.eqb p' q) eqn:Epq; [destruct H|]. apply in_map_iff in H. destruct H as ([e' q'] & Ee & H). cbn in Ee. subst e'.
      apply filter_In in H. destruct H as [H Eq]. cbn in Eq. apply Nat.eqb_eq in Eq. subst q'. apply Hrem in H. destruct H as [H1 H2].
      destruct (Hown p' e q ltac:(lia) (or_intror H1)) as [Oe' _]. rewrite <- Oe, Oe'. exact H2.
    - intros Hn. exists p. split; [apply in_seq; lia|]. destruct (Nat.eqb_spec p q) as [->|Hpq]; [congruence|]. apply in_map_iff. exists (e, q). split; [reflexivity|].
      apply filter_In. split; [apply Hrem; auto|cbn; apply Nat.eqb_refl]. }
  assert (dec : In (e, q) (want p) \/ ~ In (e, q) (want p)) by (destruct (in_dec (fun a b : ep => ltac:(decide equality; apply Nat.eq_dec)) (e, q) (want p)); auto).
  assert (dec2 : In (e, q) (cur p) \/ ~ In (e, q) (cur p)) by (destruct (in_dec (fun a b : ep => ltac:(decide equality; apply Nat.eq_dec)) (e, q) (cur p)); auto).
  split.
  - intros [[H _]|[H1 H2]]; [exact H|]. destruct dec as [D|D]; [exact D|]. exfalso. apply H2, (Hrecv H1), D.
  - intros H. destruct dec2 as [D|D]; [right|left; auto]. split; [exact D|]. intro Q. apply (Hrecv D) in Q. auto.
Qed.
(** a concrete two-rank search: one point on each rank, one face on rank 1; rank 0's point is reached after two doublings *)
Example C80_hypotheses_met : let hit := fun (rad : R) (p b : key) => if Rle_dec (match snd p with O => 4 | _ => 1 end) rad then true else false in
  let boxes := [(9, 1)]%nat in let spheres := fun r => match r with 0%nat => [(1, (0, 0)%nat)] | 1%nat => [(1, (0, 1)%nat)] | _ => [] end in
  (exists coarse, search_ok 2 hit boxes coarse) /\ (forall r, (r < 2)%nat -> points_ok r (spheres r)) /\ (forall r x, (r < 2)%nat -> In x (spheres r) -> reach hit boxes 10 x).
Proof.
  cbv zeta. split; [|split].
  - exists (fun s r => flat_map (fun rr => flat_map (fun x : sphere => flat_map (fun b : key =>
      if (if Rle_dec (match snd (snd x) with O => 4 | _ => 1 end) (fst x) then true else false) && ((snd (snd x) =? r)%nat || (snd b =? r)%nat) then [(snd x, b)] else []) [(9, 1)%nat]) (s rr)) (seq 0 2)).
    intros s r p b. rewrite in_flat_map. split.
    + intros (rr & Hrr & H). apply in_seq in Hrr. apply in_flat_map in H. destruct H as ([rad p'] & Hx & H). apply in_flat_map in H. destruct H as (b' & Hb & H).
      cbn [fst snd] in H. destruct (_ && _) eqn:E in H; [|destruct H]. destruct H as [H|[]]. inversion H; subst p' b'. apply andb_true_iff in E. destruct E as [E1 E2].
      rewrite orb_true_iff, !Nat.eqb_eq in E2. exists rr, rad. repeat split; auto; lia.
    + intros (rr & rad & H1 & H2 & H3 & H4 & H5). exists rr. split; [apply in_seq; lia|]. apply in_flat_map. exists (rad, p). split; [exact H2|]. apply in_flat_map. exists b. split; [exact H3|].
      cbn [fst snd]. rewrite H4. assert (E : ((snd p =? r)%nat || (snd b =? r)%nat) = true) by (rewrite orb_true_iff, !Nat.eqb_eq; exact H5). rewrite E. left. reflexivity.
  - intros [|[|r]] Hr; [| |lia]; (split; [intros x [<-|[]]; reflexivity|cbn; constructor; [intros []|constructor]]).
  - intros [|[|r]] x Hr; [| |lia]; intros [<-|[]]; exists 2%nat, (9, 1)%nat; (split; [lia|split; [left; reflexivity|cbn]]);
      match goal with |- context [Rle_dec ?a ?b] => destruct (Rle_dec a b); [reflexivity|lra] end.
Qed.
