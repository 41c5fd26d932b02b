(** * C99: the element and face loops add every entity's terms exactly once *)
From Coq Require Import Reals List Bool Arith ZArith Lia Lra Permutation FunctionalExtensionality.
From Verif Require Import Simd_Model Simd_Props Edge_Model Edge_Proofs Sum_Proofs Tab_LU_Props Asm_Model Asm_Spec.
Import ListNotations.
Open Scope R_scope.

Lemma loc_ext a b : (forall i, l_L a i = l_L b i) -> (forall i, l_B a i = l_B b i) -> a = b.
Proof. destruct a as [La Ba], b as [Lb Bb]. cbn [l_L l_B]. intros H1 H2. f_equal; apply functional_extensionality; assumption. Qed.
Lemma gsys_ext a b : same a b -> a = b.
Proof.
  destruct a as [A b1], b as [B b2]. intros [H1 H2]. cbn [g_A g_b] in *. f_equal.
  - apply functional_extensionality; intros r; apply functional_extensionality; intros c; apply H1.
  - apply functional_extensionality; assumption.
Qed.
Lemma same_refl a : same a a. Proof. now split. Qed.
Lemma same_eq a b : a = b -> same a b. Proof. intros ->. apply same_refl. Qed.

Lemma gadd_assoc a b c : gadd (gadd a b) c = gadd a (gadd b c).
Proof. apply gsys_ext. split; intros; unfold gadd; cbn [g_A g_b]; ring. Qed.
Lemma gadd_comm a b : gadd a b = gadd b a.
Proof. apply gsys_ext. split; intros; unfold gadd; cbn [g_A g_b]; ring. Qed.
Lemma gadd_zero a : gadd a gzero = a.
Proof. apply gsys_ext. split; intros; unfold gadd, gzero; cbn [g_A g_b]; ring. Qed.
Lemma gzero_add a : gadd gzero a = a.
Proof. rewrite gadd_comm. apply gadd_zero. Qed.
Definition gsum (l : list gsys) : gsys := fold_right gadd gzero l.
Lemma gsum_cons a l : gsum (a :: l) = gadd a (gsum l). Proof. reflexivity. Qed.
Lemma gsum_nil : gsum [] = gzero. Proof. reflexivity. Qed.
Opaque gsum.
Lemma gsum_app a b : gsum (a ++ b) = gadd (gsum a) (gsum b).
Proof. induction a; cbn [app]; [now rewrite gsum_nil, gzero_add|]. now rewrite !gsum_cons, IHa, gadd_assoc. Qed.
Lemma gsum_perm a b : Permutation a b -> gsum a = gsum b.
Proof.
  induction 1; rewrite ?gsum_cons; try congruence. rewrite <- !gadd_assoc. now rewrite (gadd_comm y x).
Qed.
Lemma fold_gadd {A} (f : A -> gsys) l s : fold_left (fun s e => gadd s (f e)) l s = gadd s (gsum (map f l)).
Proof.
  revert s; induction l as [|e l IH]; intros s; cbn [fold_left map]; [now rewrite gsum_nil, gadd_zero|]. now rewrite IH, gsum_cons, gadd_assoc.
Qed.
Lemma gsum_A {E} (f : E -> gsys) l r c : g_A (gsum (map f l)) r c = lsum (fun e => g_A (f e) r c) l.
Proof. induction l; cbn [map]; [rewrite gsum_nil; reflexivity|]. rewrite gsum_cons, lsum_cons, <- IHl. reflexivity. Qed.
Lemma gsum_b {E} (f : E -> gsys) l r : g_b (gsum (map f l)) r = lsum (fun e => g_b (f e) r) l.
Proof. induction l; cbn [map]; [rewrite gsum_nil; reflexivity|]. rewrite gsum_cons, lsum_cons, <- IHl. reflexivity. Qed.

(** ** the local system of an entity *)
Lemma hit_if a b : hit a b = if Nat.eqb a b then 1 else 0. Proof. reflexivity. Qed.
Lemma scatter_spec ids l : same (scatter ids l) (mkG (entry ids l) (entryb ids l)).
Proof.
  split; intros; unfold scatter, entry, entryb; cbn [g_A g_b].
  - rewrite <- lsum_sumn. apply lsum_ext; intros i _. rewrite <- lsum_sumn. apply lsum_ext; intros j _.
    unfold hit. destruct (Nat.eqb _ r), (Nat.eqb _ c); ring.
  - rewrite <- lsum_sumn. apply lsum_ext; intros i _. unfold hit. destruct (Nat.eqb _ r); ring.
Qed.
Lemma scatter_add ids a b : scatter ids (ladd a b) = gadd (scatter ids a) (scatter ids b).
Proof.
  apply gsys_ext. split; intros; unfold scatter, gadd, ladd; cbn [g_A g_b l_L l_B]; rewrite <- !lsum_sumn.
  - rewrite <- lsum_plus. apply lsum_ext; intros i _. rewrite <- !lsum_sumn, <- lsum_plus. apply lsum_ext; intros; ring.
  - rewrite <- lsum_plus. apply lsum_ext; intros; ring.
Qed.
Lemma scatter_zero ids : scatter ids loc0 = gzero.
Proof.
  apply gsys_ext. split; intros; unfold scatter, gzero, loc0; cbn [g_A g_b l_L l_B]; rewrite <- lsum_sumn.
  - apply lsum_zero; intros. rewrite <- lsum_sumn. apply lsum_zero; intros; ring.
  - apply lsum_zero; intros; ring.
Qed.
Definition lsumL {D} (fs : list (D -> loc)) (d : D) : loc := fold_left (fun a f => ladd a (f d)) fs loc0.
Lemma scatter_sum {D} ids (fs : list (D -> loc)) d a :
  scatter ids (fold_left (fun a f => ladd a (f d)) fs a) = gadd (scatter ids a) (gsum (map (fun f => scatter ids (f d)) fs)).
Proof.
  revert a; induction fs as [|f fs IH]; intros a; cbn [fold_left map]; [now rewrite gsum_nil, gadd_zero|].
  now rewrite IH, scatter_add, gsum_cons, gadd_assoc.
Qed.
Lemma assembled_gsum {D E} (gather : E -> D) dofs terms (ents : list E) :
  same (gsum (map (fun e => gsum (map (fun f => scatter (dofs e) (f (gather e))) (terms e))) ents)) (assembled gather dofs terms ents).
Proof.
  split; intros; unfold assembled; cbn [g_A g_b].
  - rewrite gsum_A. apply lsum_ext; intros e _. rewrite gsum_A. apply lsum_ext; intros f _. apply scatter_spec.
  - rewrite gsum_b. apply lsum_ext; intros e _. rewrite gsum_b. apply lsum_ext; intros f _. apply scatter_spec.
Qed.

(** ** one group *)
Section Loop.
Variable D : Type.
Variable gather : nat -> D.
Variable dofs : nat -> list nat.

Lemma kernels_add (ks : list (kernel D)) fs data acc l : Forall2 adds ks fs ->
  fold_left (fun a k => k data a) ks acc l = fold_left (fun a f => ladd a (f (data l))) fs (acc l).
Proof.
  intros H; revert acc; induction H as [|k f ks fs Hk _ IH]; intros acc; cbn [fold_left]; [reflexivity|].
  rewrite IH. f_equal. destruct (Hk data acc l) as [HL HB]. apply loc_ext; cbn [ladd l_L l_B]; assumption.
Qed.
Lemma fold_left_ext_in {A B} (f g : A -> B -> A) l a : (forall a b, In b l -> f a b = g a b) -> fold_left f l a = fold_left g l a.
Proof.
  revert a; induction l as [|b l IH]; intros a H; cbn; [reflexivity|]. rewrite H by now left. apply IH. intros; apply H; now right.
Qed.
Definition one fs e := gsum (map (fun f => scatter (dofs e) (f (gather e))) fs).
Lemma map_nth_seq {A B} (F : A -> B) (l : list A) d : map (fun i => F (nth i l d)) (seq 0 (length l)) = map F l.
Proof.
  induction l as [|a l IH]; [reflexivity|]. cbn [length seq map nth]. f_equal. rewrite <- seq_shift, map_map. exact IH.
Qed.
Lemma group_adds ks fs es st : Forall2 adds ks fs ->
  snd (group D gather dofs ks es st) = gadd (snd st) (gsum (map (one fs) es)).
Proof.
  intros H. unfold group. cbn [snd].
  rewrite (fold_left_ext_in _ (fun s l => gadd s (one fs (nth l es 0%nat)))).
  - rewrite fold_gadd. f_equal. f_equal. apply (map_nth_seq (one fs)).
  - intros s l Hl. apply in_seq in Hl. unfold apply_coeff. f_equal.
    rewrite (kernels_add ks fs) by assumption. rewrite scatter_sum, scatter_zero, gzero_add.
    unfold put_lanes. destruct (Nat.ltb_spec l (length es)); [reflexivity|lia].
Qed.
Lemma fold_groups ks fs gs st : Forall2 adds ks fs ->
  snd (fold_left (fun st es => group D gather dofs ks es st) gs st) = gadd (snd st) (gsum (map (one fs) (List.concat gs))).
Proof.
  intros H; revert st; induction gs as [|es gs IH]; intros st; cbn [fold_left List.concat]; [cbn [map snd]; now rewrite gsum_nil, gadd_zero|].
  rewrite IH, group_adds with (fs := fs) by assumption. now rewrite gadd_assoc, map_app, gsum_app.
Qed.
Lemma concat_groups W b : (0 < W)%nat -> List.concat (groups W b) = b.
Proof.
  intros HW. unfold groups. rewrite <- flat_map_concat_map.
  transitivity (map (fun i => nth i b 0%nat) (visited W (length b))).
  - unfold visited. generalize (seq 0 (get_num_simd_groups W (length b))) as gs. induction gs as [|g gs IH]; [reflexivity|].
    cbn [flat_map]. rewrite map_app, map_map. f_equal. exact IH.
  - rewrite C25_each_element_exactly_once by assumption. rewrite (map_nth_seq (fun i => i)). apply map_id.
Qed.
End Loop.

Lemma same_trans a b c : same a b -> same b c -> same a c.
Proof. intros [A1 A2] [B1 B2]. split; intros; [rewrite A1; apply B1 | rewrite A2; apply B2]. Qed.
Lemma same_sym a b : same a b -> same b a.
Proof. intros [A1 A2]. split; intros; symmetry; auto. Qed.

(** The system after the loop is what was there plus every entity's terms, once each: the buckets, the lanes, what the
    lanes held before (in particular the unused ones of the last group) do not matter. *)
Theorem C99_every_element_assembled_once : forall D (gather : nat -> D) dofs W ks fs fresh buckets s,
  (0 < W)%nat -> Forall2 adds ks fs ->
  same (elem_execute D gather dofs W ks fresh buckets s)
       (gadd s (assembled gather dofs (fun _ => fs) (List.concat buckets))).
Proof.
  intros D gather dofs W ks fs fresh buckets s HW H.
  rewrite <- (gsys_ext _ _ (assembled_gsum gather dofs (fun _ => fs) (List.concat buckets))).
  apply same_eq. unfold elem_execute. revert s. induction buckets as [|b bs IH]; intros s; cbn [fold_left List.concat].
  - cbn [map]. now rewrite gsum_nil, gadd_zero.
  - rewrite IH, fold_groups with (fs := fs) by assumption. cbn [snd]. rewrite concat_groups by assumption.
    rewrite map_app, gsum_app, gadd_assoc. reflexivity.
Qed.

Lemma lsum_permut {A} (f : A -> R) l l' : Permutation l l' -> lsum f l = lsum f l'.
Proof. induction 1; rewrite ?lsum_cons in *; try lra. Qed.
Lemma assembled_perm {D E} (gather : E -> D) dofs fs fs' (e e' : list E) : Permutation fs fs' -> Permutation e e' ->
  same (assembled gather dofs (fun _ => fs) e) (assembled gather dofs (fun _ => fs') e').
Proof.
  intros Hf He. split; intros; unfold assembled; cbn [g_A g_b]; rewrite (lsum_permut _ _ _ He); apply lsum_ext; intros; now apply lsum_permut.
Qed.
Lemma gadd_same a b c : same b c -> same (gadd a b) (gadd a c).
Proof. intros [H1 H2]. split; intros; unfold gadd; cbn [g_A g_b]; [rewrite H1|rewrite H2]; reflexivity. Qed.

(** Consequence: another numbering of the elements, another partition into buckets, another SIMD width, another order of
    the kernels, other left-over lane data give the same system. *)
Theorem C99_assembly_independent_of_traversal : forall D (gather : nat -> D) dofs W W' ks ks' fs fs' fresh fresh' buckets buckets' s,
  (0 < W)%nat -> (0 < W')%nat -> Forall2 adds ks fs -> Forall2 adds ks' fs' -> Permutation fs fs' ->
  Permutation (List.concat buckets) (List.concat buckets') ->
  same (elem_execute D gather dofs W ks fresh buckets s) (elem_execute D gather dofs W' ks' fresh' buckets' s).
Proof.
  intros D gather dofs W W' ks ks' fs fs' fresh fresh' buckets buckets' s HW HW' Hk Hk' Hf Hb.
  eapply same_trans; [apply (C99_every_element_assembled_once D gather dofs W ks fs); assumption|].
  eapply same_trans; [|apply same_sym, (C99_every_element_assembled_once D gather dofs W' ks' fs'); assumption].
  apply gadd_same, assembled_perm; assumption.
Qed.

(** ** boundary faces *)
Section Face.
Variable ordinal : nat -> nat.
Lemma take_run_prefix o l : exists l', l = take_run ordinal o l ++ l' /\ (forall f, In f (take_run ordinal o l) -> ordinal f = o)
  /\ (match l' with [] => True | f :: _ => ordinal f <> o end).
Proof.
  induction l as [|f l (l' & H1 & H2 & H3)]; cbn [take_run]; [exists []; repeat split; intros ? []|].
  destruct (Nat.eqb_spec (ordinal f) o) as [E|N].
  - exists l'. cbn [app]. split; [congruence|split; [|assumption]]. intros g [<-|Hg]; auto.
  - exists (f :: l). split; [reflexivity|split; [intros ? []|assumption]].
Qed.
Lemma skipn_app_exact {A} (a b : list A) : skipn (length a) (a ++ b) = b.
Proof. induction a; cbn; auto. Qed.
Lemma runs_spec n l : (length l <= n)%nat ->
  List.concat (runs ordinal n l) = l
  /\ (forall r, In r (runs ordinal n l) -> r <> [] /\ forall f, In f r -> ordinal f = ordinal (hd 0%nat r)).
Proof.
  revert l; induction n as [|n IH]; intros l Hl.
  - destruct l; [|cbn in Hl; lia]. cbn. split; [reflexivity|intros ? []].
  - destruct l as [|f l]; [cbn; split; [reflexivity|intros ? []]|].
    cbn [runs]. destruct (take_run_prefix (ordinal f) (f :: l)) as (l' & H1 & H2 & _).
    set (r := take_run ordinal (ordinal f) (f :: l)) in *.
    assert (Hr : exists r', r = f :: r') by (subst r; cbn [take_run]; rewrite Nat.eqb_refl; eauto).
    assert (Hs : skipn (length r) (f :: l) = l') by (rewrite H1; apply skipn_app_exact).
    rewrite Hs. destruct Hr as [r' Hr].
    assert (Hlen : (length l' <= n)%nat).
    { apply (f_equal (@length nat)) in H1. rewrite app_length, Hr in H1. cbn [length] in H1, Hl. lia. }
    destruct (IH l' Hlen) as [C1 C2]. split.
    + cbn [List.concat]. rewrite C1. symmetry. exact H1.
    + intros q [<-|Hq]; [|now apply C2]. rewrite Hr. split; [discriminate|]. cbn [hd]. rewrite <- Hr. apply H2.
Qed.
End Face.

(** Faces are taken in runs with one side ordinal: no face is lost or repeated, and a run never mixes ordinals. *)
Theorem C99_face_runs_partition : forall ordinal l,
  List.concat (runs ordinal (length l) l) = l
  /\ (forall r, In r (runs ordinal (length l) l) -> r <> [] /\ forall f, In f r -> ordinal f = ordinal (hd 0%nat r)).
Proof. intros. now apply runs_spec. Qed.

Section FaceLoop.
Variable D : Type.
Variable gather : nat -> D.
Variable dofs : nat -> list nat.
Variable ordinal : nat -> nat.
Variable ks : list (fkernel D).
Variable fs : list (nat -> D -> loc).
Hypothesis Hk : Forall2 (fun k f => forall o, adds (k o) (f o)) ks fs.
Definition fone e := gsum (map (fun f : D -> loc => scatter (dofs e) (f (gather e))) (map (fun f => f (ordinal e)) fs)).
Lemma at_ordinal o : Forall2 adds (map (fun k : fkernel D => k o) ks) (map (fun f : nat -> D -> loc => f o) fs).
Proof. induction Hk; cbn; constructor; auto. Qed.
Lemma fold_runs rs st : (forall r, In r rs -> r <> [] /\ forall f, In f r -> ordinal f = ordinal (hd 0%nat r)) ->
  snd (fold_left (fun st es => face_group D gather dofs ordinal ks es st) rs st) = gadd (snd st) (gsum (map fone (List.concat rs))).
Proof.
  revert st; induction rs as [|r rs IH]; intros st H; cbn [fold_left List.concat]; [cbn [map snd]; now rewrite gsum_nil, gadd_zero|].
  rewrite IH by (intros; apply H; now right).
  assert (G : snd (face_group D gather dofs ordinal ks r st) = _) by exact (group_adds D gather dofs _ _ r st (at_ordinal (ordinal (hd 0%nat r)))).
  rewrite G.
  rewrite gadd_assoc, map_app, gsum_app. do 2 f_equal. f_equal. apply map_ext_in. intros e He.
  unfold one, fone. destruct (H r (or_introl eq_refl)) as [_ Hr]. now rewrite (Hr e He).
Qed.
Lemma fold_face_groups gs st :
  snd (fold_left (fun st g => fold_left (fun st es => face_group D gather dofs ordinal ks es st) (runs ordinal (length g) g) st) gs st)
  = gadd (snd st) (gsum (map fone (List.concat gs))).
Proof.
  revert st; induction gs as [|g gs IH]; intros st; cbn [fold_left List.concat]; [cbn [map snd]; now rewrite gsum_nil, gadd_zero|].
  rewrite IH. destruct (C99_face_runs_partition ordinal g) as [C1 C2]. rewrite fold_runs by exact C2.
  now rewrite C1, gadd_assoc, map_app, gsum_app.
Qed.
End FaceLoop.

(** Every face contributes exactly once, with the data of its own side of its element. *)
Theorem C99_every_face_assembled_once : forall D (gather : nat -> D) dofs ordinal W (ks : list (fkernel D)) fs fresh buckets s,
  (0 < W)%nat -> Forall2 (fun k f => forall o, adds (k o) (f o)) ks fs ->
  same (face_execute D gather dofs W ordinal ks fresh buckets s)
       (gadd s (assembled gather dofs (fun e => map (fun f => f (ordinal e)) fs) (List.concat buckets))).
Proof.
  intros D gather dofs ordinal W ks fs fresh buckets s HW H.
  rewrite <- (gsys_ext _ _ (assembled_gsum gather dofs (fun e => map (fun f => f (ordinal e)) fs) (List.concat buckets))).
  apply same_eq. unfold face_execute. revert s. induction buckets as [|b bs IH]; intros s; cbn [fold_left List.concat].
  - cbn [map]. now rewrite gsum_nil, gadd_zero.
  - rewrite IH, (fold_face_groups D gather dofs ordinal ks fs H). cbn [snd]. rewrite concat_groups by assumption.
    rewrite map_app, gsum_app, gadd_assoc. reflexivity.
Qed.

(** ** a case *)
(** two kernels on two-node edges: a diffusion-like term and a source; five edges in buckets of three and two, SIMD width
    two, the lanes full of rubbish *)
Definition ex_diff : kernel R := fun d a l =>
  ladd (a l) (mkL (fun i => if Nat.eqb i 0 then d l else if Nat.eqb i 1 then - d l else if Nat.eqb i 2 then - d l else d l) (fun _ => 0)).
Definition ex_src : kernel R := fun d a l => ladd (a l) (mkL (fun _ => 0) (fun _ => d l)).
Definition ex_fs : list (R -> loc) :=
  [fun d => mkL (fun i => if Nat.eqb i 0 then d else if Nat.eqb i 1 then - d else if Nat.eqb i 2 then - d else d) (fun _ => 0);
   fun d => mkL (fun _ => 0) (fun _ => d)].
Lemma ex_adds : Forall2 adds [ex_diff; ex_src] ex_fs.
Proof. repeat constructor. Qed.
Example C99_chain_of_edges :
  let s := elem_execute R (fun e => INR e + 1) (fun e => [e; S e]) 2 [ex_diff; ex_src] (fun _ => 77) [[0; 1; 2]; [3; 4]]%nat gzero in
  g_A s 2%nat 2%nat = 5 /\ g_A s 2%nat 3%nat = - 3 /\ g_b s 2%nat = 5 /\ g_b s 5%nat = 5.
Proof.
  cbv zeta. destruct (C99_every_element_assembled_once R (fun e => INR e + 1) (fun e => [e; S e]) 2 [ex_diff; ex_src] ex_fs
    (fun _ => 77) [[0; 1; 2]; [3; 4]]%nat gzero ltac:(lia) ex_adds) as [HA Hb].
  rewrite !HA, !Hb. unfold gadd, assembled, gzero, entry, entryb, lsum, ex_fs.
  cbn [g_A g_b List.concat app map fold_right length seq nth Nat.eqb l_L l_B Nat.mul Nat.add INR]. repeat split; lra.
Qed.
