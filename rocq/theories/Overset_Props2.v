(** C77 (continued): explicit update of fringe values *)
Require Import Reals List Bool Arith Lra Lia Permutation.
From Verif Require Import Edge_Model Edge_Proofs Overset_Model Overset_Props.
From Verif Require Sum_Proofs Tab_LU_Props Elem_Proofs Rad_Quad_Proofs3.
Import ListNotations.
Open Scope R_scope.

(** shapes for which the gather of overset_constraint_node_field_update_gen is right *)
Definition shape_ok (nr nc : nat) : Prop := nr = 1%nat \/ nr = nc.
Definition weights_ok (o : oinfo) : Prop := sumn (o_npe o) (o_w o) = 1.
Definition inside (o : oinfo) : Prop := weights_ok o /\ forall k, (k < o_npe o)%nat -> 0 <= o_w o k.
(** no donor node is itself interpolated *)
Definition no_chain (infos : list oinfo) : Prop :=
  forall o o' k, In o infos -> In o' infos -> (k < o_npe o)%nat -> o_elem o k <> o_node o'.

Lemma gather_field_spec nr nc npe elem q : shape_ok nr nc ->
  exists f, gather_field nr nc npe elem q = Some f /\ forall c ni, (c < nr*nc)%nat -> (ni < npe)%nat -> f (c*npe + ni)%nat = q (elem ni) c.
Proof.
  intros SH.
  set (step3 := fun (ni i : nat) (oa : option (nat -> R)) (j : nat) => match oa with None => None | Some a =>
       let k := (i*npe*nr + j*npe + ni)%nat in
       if (k <? npe*nr*nc)%nat then Some (set_at k (q (elem ni) (i*nc + j)%nat) a) else None end).
  assert (K : forall i j ni, (i < nr)%nat -> (i*npe*nr + j*npe + ni = (i*nc + j)*npe + ni)%nat).
  { intros i j ni Hi. destruct SH as [->| ->]; [assert (i = 0%nat) by lia; subst; ring|ring]. }
  assert (IN : forall ni i, (ni < npe)%nat -> (i < nr)%nat -> forall m a, (m <= nc)%nat -> exists a',
     fold_left (step3 ni i) (seq 0 m) (Some a) = Some a' /\
     forall c n', (n' < npe)%nat -> a' (c*npe + n')%nat = if (Nat.eqb n' ni && (i*nc <=? c)%nat && (c <? i*nc + m)%nat)%bool then q (elem ni) c else a (c*npe + n')%nat).
  { intros ni i Hni Hi. induction m as [|m IH]; intros a Hm.
    - exists a. split; [reflexivity|]. intros c n' Hn'. destruct (Nat.leb_spec (i*nc) c), (Nat.ltb_spec c (i*nc+0)); try lia; rewrite ?andb_false_r; reflexivity.
    - destruct (IH a ltac:(lia)) as (a' & E & P). rewrite seq_S, fold_left_app. cbn [fold_left plus]. rewrite E. unfold step3. rewrite K by exact Hi.
      assert (B : ((i*nc + m)*npe + ni < npe*nr*nc)%nat).
      { assert ((i*nc + m + 1) * npe <= nr * nc * npe)%nat by (apply Nat.mul_le_mono_r; nia). lia. }
      destruct (Nat.ltb_spec ((i*nc + m)*npe + ni) (npe*nr*nc)); [|lia]. eexists. split; [reflexivity|]. intros c n' Hn'. unfold set_at.
      destruct (Nat.eqb_spec (c*npe + n') ((i*nc + m)*npe + ni)) as [X|X].
      + apply idx_inj in X; [|assumption|assumption]. destruct X as [-> ->]. rewrite Nat.eqb_refl. destruct (Nat.leb_spec (i*nc) (i*nc+m)), (Nat.ltb_spec (i*nc+m) (i*nc + S m)); try lia. reflexivity.
      + rewrite P by exact Hn'. destruct (Nat.eqb_spec n' ni) as [->|]; cbn [andb]; [|reflexivity].
        destruct (Nat.leb_spec (i*nc) c); cbn [andb]; [|reflexivity].
        destruct (Nat.ltb_spec c (i*nc+m)), (Nat.ltb_spec c (i*nc+S m)); try reflexivity; try lia. exfalso. apply X. assert (c = (i*nc+m)%nat) by lia. subst. reflexivity. }
  assert (MID : forall ni, (ni < npe)%nat -> forall m a, (m <= nr)%nat -> exists a',
     fold_left (fun oa i => fold_left (step3 ni i) (seq 0 nc) oa) (seq 0 m) (Some a) = Some a' /\
     forall c n', (n' < npe)%nat -> a' (c*npe + n')%nat = if (Nat.eqb n' ni && (c <? m*nc)%nat)%bool then q (elem ni) c else a (c*npe + n')%nat).
  { intros ni Hni. induction m as [|m IH]; intros a Hm; [exists a; split; [reflexivity|]; intros; cbn; rewrite andb_false_r; reflexivity|].
    destruct (IH a ltac:(lia)) as (a1 & E1 & P1). rewrite seq_S, fold_left_app. cbn [fold_left plus]. rewrite E1.
    destruct (IN ni m Hni ltac:(lia) nc a1 (Nat.le_refl _)) as (a2 & E2 & P2). exists a2. split; [exact E2|]. intros c n' Hn'. rewrite P2, P1 by exact Hn'.
    destruct (Nat.eqb n' ni); cbn [andb]; [|reflexivity].
    destruct (Nat.leb_spec (m*nc) c), (Nat.ltb_spec c (m*nc+nc)), (Nat.ltb_spec c (m*nc)), (Nat.ltb_spec c (S m*nc)); cbn [andb]; try reflexivity; nia. }
  assert (OUT : forall m a, (m <= npe)%nat -> exists a',
     fold_left (fun oa ni => fold_left (fun oa i => fold_left (step3 ni i) (seq 0 nc) oa) (seq 0 nr) oa) (seq 0 m) (Some a) = Some a' /\
     forall c n', (n' < npe)%nat -> a' (c*npe + n')%nat = if ((n' <? m)%nat && (c <? nr*nc)%nat)%bool then q (elem n') c else a (c*npe + n')%nat).
  { induction m as [|m IH]; intros a Hm; [exists a; split; [reflexivity|]; intros; reflexivity|].
    destruct (IH a ltac:(lia)) as (a1 & E1 & P1). rewrite seq_S, fold_left_app. cbn [fold_left plus]. rewrite E1.
    destruct (MID m ltac:(lia) nr a1 (Nat.le_refl _)) as (a2 & E2 & P2). exists a2. split; [exact E2|]. intros c n' Hn'. rewrite P2, P1 by exact Hn'.
    destruct (Nat.eqb_spec n' m) as [->|]; cbn [andb].
    - destruct (Nat.ltb_spec m m), (Nat.ltb_spec m (S m)), (c <? nr*nc)%nat; cbn [andb]; try reflexivity; lia.
    - destruct (Nat.ltb_spec n' m), (Nat.ltb_spec n' (S m)); cbn [andb]; try reflexivity; lia. }
  destruct (OUT npe (fun _ => 0) (Nat.le_refl _)) as (f & E & P). exists f. split; [exact E|]. intros c ni Hc Hni. rewrite P by exact Hni.
  destruct (Nat.ltb_spec ni npe), (Nat.ltb_spec c (nr*nc)); cbn [andb]; try lia. reflexivity.
Qed.
Lemma at_donor_ext o q q' c : (forall k, (k < o_npe o)%nat -> q (o_elem o k) c = q' (o_elem o k) c) -> at_donor o q c = at_donor o q' c.
Proof. intros H. unfold at_donor. apply sumn_ext. intros k Hk. rewrite H by exact Hk. reflexivity. Qed.
Lemma update1_spec nr nc q o : shape_ok nr nc -> exists q', field_update1 nr nc (Some q) o = Some q' /\
  (forall c, (c < nr*nc)%nat -> q' (o_node o) c = at_donor o q c) /\ (forall i c, i <> o_node o \/ (nr*nc <= c)%nat -> q' i c = q i c).
Proof.
  intros SH. destruct (gather_field_spec nr nc (o_npe o) (o_elem o) q SH) as (f & E & P). unfold field_update1. rewrite E. eexists. split; [reflexivity|]. split.
  - intros c Hc. rewrite Nat.eqb_refl. destruct (Nat.ltb_spec c (nr*nc)); [|lia]. unfold interpolate_point, at_donor. apply sumn_ext. intros k Hk. rewrite P by assumption. reflexivity.
  - intros i c H. destruct (Nat.eqb_spec i (o_node o)) as [->|]; [|reflexivity]. destruct (Nat.ltb_spec c (nr*nc)); [|reflexivity]. destruct H; [congruence|lia].
Qed.
Lemma update_cons nr nc o l q : field_update nr nc (o :: l) q = match field_update1 nr nc (Some q) o with Some q1 => field_update nr nc l q1 | None => None end.
Proof.
  unfold field_update. cbn [fold_left]. destruct (field_update1 nr nc (Some q) o) as [q1|]; [reflexivity|].
  induction l; [reflexivity|]. cbn [fold_left]. exact IHl.
Qed.
(** For scalars, vectors and square tensors the update never writes out of bounds; if no donor node is itself a fringe node,
    each fringe node receives, in every component, the interpolation of the donor values and nothing else changes. *)
Theorem C77_field_update nr nc infos q : shape_ok nr nc -> NoDup (map o_node infos) -> no_chain infos ->
  exists q', field_update nr nc infos q = Some q' /\
  (forall o c, In o infos -> (c < nr*nc)%nat -> q' (o_node o) c = at_donor o q c) /\
  (forall i c, ~ In i (map o_node infos) \/ (nr*nc <= c)%nat -> q' i c = q i c).
Proof.
  intros SH. revert q. induction infos as [|o l IH]; intros q ND NC.
  - exists q. split; [reflexivity|]. split; [intros o c []|auto].
  - cbn [map] in ND. inversion ND as [|? ? N1 N2]; subst. rewrite update_cons. destruct (update1_spec nr nc q o SH) as (q1 & E1 & V1 & U1). rewrite E1.
    destruct (IH q1 N2) as (q' & E & V & U); [intros a b k Ha Hb; apply NC; now right|]. exists q'. split; [exact E|]. split.
    + intros o' c [<-|Ho'] Hc.
      * rewrite U by (left; exact N1). apply V1, Hc.
      * rewrite V by assumption. apply at_donor_ext. intros k Hk. apply U1. left. apply (NC o' o k); [now right|now left|exact Hk].
    + intros i c H. cbn [map] in H. rewrite U by (destruct H as [H|H]; [left; intros X; apply H; now right|now right]). apply U1.
      destruct H as [H|H]; [left; intros ->; apply H; now left|now right].
Qed.
(** The result does not depend on the order in which the constraints are visited. *)
Corollary C77_field_update_order nr nc infos infos' q q1 q2 : shape_ok nr nc -> NoDup (map o_node infos) -> no_chain infos -> Permutation infos infos' ->
  field_update nr nc infos q = Some q1 -> field_update nr nc infos' q = Some q2 -> forall i c, q1 i c = q2 i c.
Proof.
  intros SH ND NC P E1 E2 i c.
  assert (ND' : NoDup (map o_node infos')) by (eapply Permutation_NoDup; [apply Permutation_map, P|exact ND]).
  assert (NC' : no_chain infos') by (intros a b k Ha Hb; apply NC; eapply Permutation_in; [apply Permutation_sym, P|exact Ha|apply Permutation_sym, P|exact Hb]).
  destruct (C77_field_update nr nc infos q SH ND NC) as (p1 & F1 & V1 & U1). destruct (C77_field_update nr nc infos' q SH ND' NC') as (p2 & F2 & V2 & U2).
  rewrite E1 in F1. rewrite E2 in F2. injection F1 as <-. injection F2 as <-.
  destruct (le_lt_dec (nr*nc) c) as [Hc|Hc]; [rewrite U1, U2 by (right; exact Hc); reflexivity|].
  destruct (in_dec Nat.eq_dec i (map o_node infos)) as [Hi|Hi].
  - apply in_map_iff in Hi. destruct Hi as (o & <- & Ho). rewrite (V1 o c Ho Hc), (V2 o c (Permutation_in _ P Ho) Hc). reflexivity.
  - rewrite U1 by (left; exact Hi). rewrite U2; [reflexivity|]. left. intros X. apply Hi. eapply Permutation_in; [apply Permutation_map, Permutation_sym, P|exact X].
Qed.
(** Repeating the update changes nothing. *)
Corollary C77_field_update_idempotent nr nc infos q q1 : shape_ok nr nc -> NoDup (map o_node infos) -> no_chain infos ->
  field_update nr nc infos q = Some q1 -> exists q2, field_update nr nc infos q1 = Some q2 /\ forall i c, q2 i c = q1 i c.
Proof.
  intros SH ND NC E. destruct (C77_field_update nr nc infos q SH ND NC) as (p1 & F1 & V1 & U1). rewrite E in F1. injection F1 as <-.
  destruct (C77_field_update nr nc infos q1 SH ND NC) as (q2 & F2 & V2 & U2). exists q2. split; [exact F2|]. intros i c.
  destruct (le_lt_dec (nr*nc) c) as [Hc|Hc]; [apply U2; now right|].
  destruct (in_dec Nat.eq_dec i (map o_node infos)) as [Hi|Hi]; [|apply U2; now left].
  apply in_map_iff in Hi. destruct Hi as (o & <- & Ho). rewrite (V2 o c Ho Hc), (V1 o c Ho Hc). apply at_donor_ext. intros k Hk. apply U1. left.
  intros X. apply in_map_iff in X. destruct X as (o' & X & Ho'). exact (NC o o' k Ho Ho' Hk (eq_sym X)).
Qed.

(** ** consistency of the interpolation *)
Lemma at_donor_bounds o q c lo hi : inside o -> (forall k, (k < o_npe o)%nat -> lo <= q (o_elem o k) c <= hi) -> lo <= at_donor o q c <= hi.
Proof.
  intros [W N] B. unfold at_donor. unfold weights_ok in W.
  assert (L : sumn (o_npe o) (fun k => lo * o_w o k) <= sumn (o_npe o) (fun k => o_w o k * q (o_elem o k) c)).
  { apply Tab_LU_Props.sumn_le. intros k Hk. rewrite Rmult_comm. apply Rmult_le_compat_l; [auto|apply B, Hk]. }
  assert (H : sumn (o_npe o) (fun k => o_w o k * q (o_elem o k) c) <= sumn (o_npe o) (fun k => hi * o_w o k)).
  { apply Tab_LU_Props.sumn_le. intros k Hk. rewrite (Rmult_comm hi). apply Rmult_le_compat_l; [auto|apply B, Hk]. }
  rewrite sumn_scal in L, H. rewrite W in L, H. lra.
Qed.
(** Bounds are preserved, whatever the order and even if donors are fringe nodes. *)
Theorem C77_field_update_bounded nr nc infos q c lo hi : shape_ok nr nc -> (forall o, In o infos -> inside o) -> (forall i, lo <= q i c <= hi) ->
  exists q', field_update nr nc infos q = Some q' /\ forall i, lo <= q' i c <= hi.
Proof.
  intros SH. revert q. induction infos as [|o l IH]; intros q I B; [exists q; split; [reflexivity|exact B]|].
  rewrite update_cons. destruct (update1_spec nr nc q o SH) as (q1 & E1 & V1 & U1). rewrite E1. apply IH; [intros; apply I; now right|]. intros i.
  destruct (Nat.eq_dec i (o_node o)) as [->|N]; [|rewrite U1 by (left; exact N); apply B]. destruct (le_lt_dec (nr*nc) c) as [Hc|Hc]; [rewrite U1 by (right; exact Hc); apply B|].
  rewrite V1 by exact Hc. apply at_donor_bounds; [apply I; now left|auto].
Qed.
(** A uniform field is not disturbed ... *)
Theorem C77_uniform_field nr nc infos q c v : shape_ok nr nc -> (forall o, In o infos -> weights_ok o) -> (forall i, q i c = v) ->
  exists q', field_update nr nc infos q = Some q' /\ forall i, q' i c = v.
Proof.
  intros SH. revert q. induction infos as [|o l IH]; intros q I B; [exists q; split; [reflexivity|exact B]|].
  rewrite update_cons. destruct (update1_spec nr nc q o SH) as (q1 & E1 & V1 & U1). rewrite E1. apply IH; [intros; apply I; now right|]. intros i.
  destruct (Nat.eq_dec i (o_node o)) as [->|N]; [|rewrite U1 by (left; exact N); apply B]. destruct (le_lt_dec (nr*nc) c) as [Hc|Hc]; [rewrite U1 by (right; exact Hc); apply B|].
  rewrite V1 by exact Hc. unfold at_donor. rewrite (sumn_ext _ _ (fun k => v * o_w o k)) by (intros; rewrite B; ring). rewrite sumn_scal. rewrite (I o) by now left. ring.
Qed.
(** ... nor a linear one, once the donor point found by the search reproduces the fringe node's coordinates. *)
Theorem C77_linear_field nr nc infos (x : nat -> vec) n g b q c : shape_ok nr nc ->
  (forall o, In o infos -> weights_ok o /\ forall d, (d < n)%nat -> sumn (o_npe o) (fun k => o_w o k * x (o_elem o k) d) = x (o_node o) d) ->
  (forall i, q i c = b + sumn n (fun d => g d * x i d)) ->
  exists q', field_update nr nc infos q = Some q' /\ forall i, q' i c = b + sumn n (fun d => g d * x i d).
Proof.
  intros SH. revert q. induction infos as [|o l IH]; intros q I B; [exists q; split; [reflexivity|exact B]|].
  rewrite update_cons. destruct (update1_spec nr nc q o SH) as (q1 & E1 & V1 & U1). rewrite E1. apply IH; [intros; apply I; now right|]. intros i.
  destruct (Nat.eq_dec i (o_node o)) as [->|N]; [|rewrite U1 by (left; exact N); apply B]. destruct (le_lt_dec (nr*nc) c) as [Hc|Hc]; [rewrite U1 by (right; exact Hc); apply B|].
  rewrite V1 by exact Hc. destruct (I o (or_introl eq_refl)) as [W X]. unfold at_donor, weights_ok in *.
  rewrite (sumn_ext _ _ (fun k => b * o_w o k + sumn n (fun d => g d * (o_w o k * x (o_elem o k) d)))).
  - rewrite sumn_plus, sumn_scal, W, Elem_Proofs.sumn_swap. rewrite (sumn_ext n (fun d => sumn (o_npe o) (fun k => g d * (o_w o k * x (o_elem o k) d))) (fun d => g d * x (o_node o) d)); [ring|].
    intros d Hd. rewrite sumn_scal, X by exact Hd. reflexivity.
  - intros k Hk. rewrite B. rewrite Rmult_plus_distr_l, <- sumn_scal. f_equal; [ring|]. apply sumn_ext. intros; ring.
Qed.
(** The implicit coupling inherits the bounds: after the solve a fringe value lies in the range of its donors. *)
Theorem C77_solved_fringe_bounded o q x a lo hi : inside o -> q (o_node o) a + x (o_node o) a = at_donor o (fun i c => q i c + x i c) a ->
  (forall k, (k < o_npe o)%nat -> lo <= q (o_elem o k) a + x (o_elem o k) a <= hi) -> lo <= q (o_node o) a + x (o_node o) a <= hi.
Proof. intros I E B. rewrite E. apply (at_donor_bounds o (fun i c => q i c + x i c) a lo hi I B). Qed.

(** ** where the explicit update fails *)
(** If a donor is itself a fringe node, the result depends on the visiting order. *)
Theorem C77_update_order_refuted : exists infos infos' q q1 q2, Permutation infos infos' /\ NoDup (map o_node infos) /\ (forall o, In o infos -> inside o) /\
  field_update 1 1 infos q = Some q1 /\ field_update 1 1 infos' q = Some q2 /\ q1 0%nat 0%nat <> q2 0%nat 0%nat.
Proof.
  set (o1 := mkO 0 0 1 (fun _ => 1%nat) (fun _ => 1)). set (o2 := mkO 1 0 1 (fun _ => 2%nat) (fun _ => 1)).
  exists [o1; o2], [o2; o1], (fun i _ => INR i). eexists. eexists. split; [apply perm_swap|]. split; [repeat constructor; cbn; intuition lia|]. split.
  - intros o [<-|[<-|[]]]; (split; [unfold weights_ok, sumn; cbn; lra|intros; cbn; lra]).
  - split; [reflexivity|]. split; [reflexivity|]. unfold interpolate_point, set_at, sumn. cbn. lra.
Qed.
(** A 2 x 3 field is gathered with overlapping slots: the third entry of the first row receives the first of the second row. *)
Theorem C77_rectangular_field_refuted : exists o q q', inside o /\ field_update 2 3 [o] q = Some q' /\ q' (o_node o) 2%nat <> at_donor o q 2.
Proof.
  exists (mkO 0 0 1 (fun _ => 1%nat) (fun _ => 1)), (fun _ c => INR c). eexists. split; [split; [unfold weights_ok, sumn; cbn; lra|intros; cbn; lra]|].
  split; [reflexivity|]. unfold at_donor, interpolate_point, set_at, sumn. cbn. lra.
Qed.
(** A 3 x 1 field is written past the end of the work array. *)
Theorem C77_tall_field_overruns_refuted : exists o q, inside o /\ field_update 3 1 [o] q = None.
Proof.
  exists (mkO 0 0 1 (fun _ => 1%nat) (fun _ => 1)), (fun _ c => INR c). split; [split; [unfold weights_ok, sumn; cbn; lra|intros; cbn; lra]|]. reflexivity.
Qed.

(** two overlapping 1-D grids on two ranks: background nodes 0..3, overset nodes 10..13; node 10 sits at the middle of (1,2),
    node 1 of the background at 1/4 of (11,12) and is shared *)
Definition ex_o1 := mkO 10 0 2 (fun k => match k with 0%nat => 1%nat | _ => 2%nat end) (fun _ => 1/2).
Definition ex_o2 := mkO 3 1 2 (fun k => match k with 0%nat => 11%nat | _ => 12%nat end) (fun k => match k with 0%nat => 3/4 | _ => 1/4 end).
Example C77_hypotheses_met : well_owned [[ex_o1; ex_o2]; [ex_o2]] /\ processed [[ex_o1; ex_o2]; [ex_o2]] = [ex_o1; ex_o2] /\ no_chain [ex_o1; ex_o2] /\
  inside ex_o1 /\ inside ex_o2 /\ 0 < scaling 1 1 (fun _ => 2) (fun _ => 1) ex_o2 /\ shape_ok 1 3 /\ shape_ok 3 3 /\
  exists x, row_holds 1 [1;2;3;10;11;12]%nat (overset_execute 1 1 0 (fun _ => 1) (fun _ => 1) (fun i _ => INR i) [[ex_o1; ex_o2]; [ex_o2]] (mkOS (fun _ _ _ _ => 7) (fun _ _ => 5))) x 10 0.
Proof.
  assert (WO : well_owned [[ex_o1; ex_o2]; [ex_o2]]) by (split; [repeat constructor; cbn; intuition lia|intros o [<-|[<-|[<-|[]]]]; cbn; auto]).
  split; [exact WO|]. split; [reflexivity|].
  split. { intros o o' k [<-|[<-|[]]] [<-|[<-|[]]] Hk; cbn in Hk |- *; destruct k as [|[|k]]; cbn; lia. }
  split. { split; [unfold weights_ok, sumn; cbn; lra|intros [|[|k]] Hk; cbn in *; lra]. }
  split. { split; [unfold weights_ok, sumn; cbn; lra|intros [|[|k]] Hk; cbn in *; try lra; lia]. }
  split. { apply C77_scaling_positive; [lra|cbn; lia|intros; lra]. }
  split; [now left|]. split; [now right|].
  exists (fun i _ => if Nat.eqb i 10 then - (17/2) else 0).
  apply (C77_fringe_value_is_interpolated 1 1 0 (fun _ => 1) (fun _ => 1) (fun i _ => INR i) (Nat.lt_0_succ 0) _ _ [1;2;3;10;11;12]%nat _ ex_o1 0 WO); [cbn; auto|lia| |repeat constructor; cbn; intuition lia|cbn; auto|intros [|[|k]] Hk; cbn; auto|].
  - apply Rgt_not_eq. apply C77_scaling_positive; [lra|cbn; lia|intros; lra].
  - unfold at_donor, sumn. cbn. lra.
Qed.
