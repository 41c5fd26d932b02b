(** C14: dense element contributions reach exactly the addressed matrix entries. *)
From Coq Require Import Reals Lra List ZArith Lia Bool Permutation.
From Coq Require Import Sorting.Sorted.
From Verif Require Import Edge_Proofs Sum_Model Sum_Proofs.
Import ListNotations.
Open Scope R_scope.

(** Specification. Local dof p of an element with ndof dofs per node belongs to node p/ndof, dof
    p mod ndof; it addresses local row rowOf p and local column colOf p. *)
Definition rowOf (ndof : nat) (rowLID : nat -> nat) (p : nat) : nat := (rowLID (p / ndof) + p mod ndof)%nat.
Definition colOf (ndof : nat) (colLID : nat -> Z) (p : nat) : Z := (colLID (p / ndof)%nat + Z.of_nat (p mod ndof))%Z.
(** what the element must add to matrix entry (row r, column c) and to right-hand side entry r *)
Definition lhs_sum (ndof n : nat) rowLID colLID (lhs : nat -> nat -> R) (r : nat) (c : Z) : R :=
  lsum (fun p => lsum (fun q => if (Nat.eqb (rowOf ndof rowLID p) r && Z.eqb (colOf ndof colLID q) c)%bool then lhs p q else 0)
    (seq 0 (n*ndof))) (seq 0 (n*ndof)).
Definition rhs_sum (ndof n : nat) rowLID (rhs : nat -> R) (r : nat) : R :=
  lsum (fun p => if Nat.eqb (rowOf ndof rowLID p) r then rhs p else 0) (seq 0 (n*ndof)).

(** a sorted reordering of the (column, position) pairs, as shellSortKeysAndValues produces *)
Definition is_sorting (ndof n : nat) (colLID : nat -> Z) (pairs : list (Z * nat)) : Prop :=
  Permutation (unsorted_pairs ndof n colLID) pairs /\ StronglySorted key_le pairs.

(** the row's graph: strictly increasing columns containing all the element's columns; for three dofs
    also stored by node blocks (as C16 shows the graph construction produces) *)
Definition row_ready (ndof n : nat) (colLID : nat -> Z) (cols : nat -> Z) (len : nat) : Prop :=
  cols_incr cols len /\
  (forall q, (q < n*ndof)%nat -> exists k, (k < len)%nat /\ cols k = colOf ndof colLID q) /\
  (ndof = 3%nat -> blocked3 cols len).
(** for three dofs: the element's nodes have distinct columns, at multiples of three *)
Definition nodes_ready (ndof n : nat) (colLID : nat -> Z) : Prop :=
  ndof = 3%nat ->
  (forall a b, (a < n)%nat -> (b < n)%nat -> a <> b -> colLID a <> colLID b) /\
  (forall a, (a < n)%nat -> exists q, colLID a = 3 * q)%Z.

Lemma row_adds ndof n colLID pairs cols len input v k :
  (1 <= ndof)%nat -> is_sorting ndof n colLID pairs -> nodes_ready ndof n colLID -> row_ready ndof n colLID cols len -> (k < len)%nat ->
  sum_into_row ndof cols len pairs input v k =
  v k + lsum (fun q => if Z.eqb (colOf ndof colLID q) (cols k) then input q else 0) (seq 0 (n*ndof)).
Proof.
  intros Hnd [HP HS] HN (HI & HC & HB) Hk.
  assert (E : lsum (fun q => if Z.eqb (colOf ndof colLID q) (cols k) then input q else 0) (seq 0 (n*ndof)) = lsum (hits cols k input) pairs).
  { rewrite <- (lsum_perm _ _ _ HP). unfold unsorted_pairs. rewrite lsum_map. reflexivity. }
  rewrite E. unfold sum_into_row. destruct (Nat.eqb_spec ndof 3) as [->|Hne].
  - destruct (HN eq_refl) as [N1 N2]. destruct (HB eq_refl) as (nb & EL & HB'). subst len.
    destruct (sorted_pairs3 n colLID pairs N1 N2 HP HS) as (es & P & SS & ->).
    apply (vec3_fold cols nb colLID input HI (ex_intro _ nb (conj eq_refl HB')) es v 0%nat); auto.
    intros e He. apply (Permutation_in _ (Permutation_sym P)) in He. apply in_seq in He.
    destruct (HC (3*e)%nat ltac:(lia)) as (k0 & Hk0 & Ek). unfold colOf in Ek.
    assert (D1 : ((3*e)/3 = e)%nat) by (rewrite Nat.mul_comm; apply Nat.div_mul; lia).
    assert (D2 : ((3*e) mod 3 = 0)%nat) by (rewrite Nat.mul_comm; apply Nat.mod_mul; lia).
    rewrite D1, D2 in Ek. destruct (N2 e ltac:(lia)) as [q Eq].
    assert (K3 : k0 = (3 * (k0/3) + k0 mod 3)%nat) by (apply Nat.div_mod; lia).
    assert (M := Nat.mod_upper_bound k0 3 ltac:(lia)). assert (Q : (k0 / 3 < nb)%nat) by (apply Nat.div_lt_upper_bound; lia).
    destruct (HB' (k0/3)%nat Q) as ([q' Eq'] & C1 & C2).
    exists (k0/3)%nat. split; [lia|].
    destruct (Nat.eq_dec (k0 mod 3) 0) as [Z0|]; [rewrite Z0, Nat.add_0_r in K3; rewrite <- K3; lia|].
    destruct (Nat.eq_dec (k0 mod 3) 1) as [Z1|]; [rewrite Z1 in K3; rewrite K3 in Ek; lia|].
    assert (Z2 : (k0 mod 3 = 2)%nat) by lia. rewrite Z2 in K3; rewrite K3 in Ek; lia.
  - unfold sum_into_row_gen. apply gen_fold; auto.
    intros kp Hkp. apply (Permutation_in _ (Permutation_sym HP)) in Hkp. unfold unsorted_pairs in Hkp. apply in_map_iff in Hkp.
    destruct Hkp as (q & <- & Hq). apply in_seq in Hq. cbn [fst]. destruct (HC q ltac:(lia)) as (k0 & Hk0 & Ek).
    exists k0. split; [lia|]. exact Ek.
Qed.

Section Elements.
Variable ndof maxOwned maxShared : nat.
Variable ocols scols : nat -> nat -> Z.
Variable olen slen : nat -> nat.
Hypothesis Hnd : (1 <= ndof)%nat.

Record elem := { en : nat; erow : nat -> nat; ecol : nat -> Z; epairs : list (Z * nat); elhs : nat -> nat -> R; erhs : nat -> R }.
(** an element whose columns are in the graph of every row it touches *)
Definition elem_ready (e : elem) : Prop :=
  is_sorting ndof (en e) (ecol e) (epairs e) /\ nodes_ready ndof (en e) (ecol e) /\
  forall p, (p < en e * ndof)%nat -> let r := rowOf ndof (erow e) p in
    ((r < maxOwned)%nat -> row_ready ndof (en e) (ecol e) (ocols r) (olen r)) /\
    ((maxOwned <= r < maxShared)%nat -> row_ready ndof (en e) (ecol e) (scols (r - maxOwned)%nat) (slen (r - maxOwned)%nat)).
Definition assemble (e : elem) (s : sys) : sys :=
  sumInto ndof maxOwned maxShared ocols scols olen slen (erow e) (epairs e) (elhs e) (erhs e) s.

Lemma sumInto_spec e s : elem_ready e ->
  let s' := assemble e s in
  (forall r k, (r < maxOwned)%nat -> (k < olen r)%nat ->
     ov s' r k = ov s r k + lhs_sum ndof (en e) (erow e) (ecol e) (elhs e) r (ocols r k)) /\
  (forall r, (r < maxOwned)%nat -> orhs s' r = orhs s r + rhs_sum ndof (en e) (erow e) (erhs e) r) /\
  (forall r k, (maxOwned <= r < maxShared)%nat -> (k < slen (r - maxOwned))%nat ->
     sv s' (r - maxOwned)%nat k = sv s (r - maxOwned)%nat k + lhs_sum ndof (en e) (erow e) (ecol e) (elhs e) r (scols (r - maxOwned)%nat k)) /\
  (forall r, (maxOwned <= r < maxShared)%nat -> srhs s' (r - maxOwned)%nat = srhs s (r - maxOwned)%nat + rhs_sum ndof (en e) (erow e) (erhs e) r).
Proof.
  intros (HSort & HN & HR). destruct e as [n rowLID colLID pairs lhs rhs]. cbn [en erow ecol epairs elhs erhs] in *.
  unfold assemble, sumInto. cbn [en erow ecol epairs elhs erhs].
  set (row := rowOf ndof rowLID) in *.
  assert (Hp : forall kp, In kp pairs -> (snd kp < n*ndof)%nat).
  { intros kp Hk. destruct HSort as [HP _]. apply (Permutation_in _ (Permutation_sym HP)) in Hk. unfold unsorted_pairs in Hk.
    apply in_map_iff in Hk. destruct Hk as (q & <- & Hq). apply in_seq in Hq. cbn [snd]. lia. }
  set (cs := fun (c : Z) (p : nat) => lsum (fun q => if Z.eqb (colOf ndof colLID q) c then lhs p q else 0) (seq 0 (n*ndof))).
  assert (G : forall todo s, (forall kp, In kp todo -> (snd kp < n*ndof)%nat) ->
    let s' := fold_left (sum_row_step ndof maxOwned maxShared ocols scols olen slen rowLID pairs lhs rhs) todo s in
    (forall r k, (r < maxOwned)%nat -> (k < olen r)%nat -> ov s' r k = ov s r k + lsum (fun kp => if Nat.eqb (row (snd kp)) r then cs (ocols r k) (snd kp) else 0) todo) /\
    (forall r, (r < maxOwned)%nat -> orhs s' r = orhs s r + lsum (fun kp => if Nat.eqb (row (snd kp)) r then rhs (snd kp) else 0) todo) /\
    (forall r k, (maxOwned <= r < maxShared)%nat -> (k < slen (r-maxOwned))%nat -> sv s' (r-maxOwned)%nat k = sv s (r-maxOwned)%nat k + lsum (fun kp => if Nat.eqb (row (snd kp)) r then cs (scols (r-maxOwned)%nat k) (snd kp) else 0) todo) /\
    (forall r, (maxOwned <= r < maxShared)%nat -> srhs s' (r-maxOwned)%nat = srhs s (r-maxOwned)%nat + lsum (fun kp => if Nat.eqb (row (snd kp)) r then rhs (snd kp) else 0) todo)).
  { induction todo as [|[key p] todo IH]; intros st Ht.
    - cbn [fold_left]. unfold lsum. simpl. repeat split; intros; lra.
    - cbn zeta. cbn [fold_left].
      destruct (IH (sum_row_step ndof maxOwned maxShared ocols scols olen slen rowLID pairs lhs rhs st (key,p)) (fun kp H => Ht kp (or_intror H))) as (A & B & C & D).
      cbn zeta in A, B, C, D.
      assert (Pp := Ht (key,p) (or_introl eq_refl)). cbn [snd] in Pp. destruct (HR p Pp) as [RO RS].
      set (st1 := sum_row_step ndof maxOwned maxShared ocols scols olen slen rowLID pairs lhs rhs st (key,p)) in *.
      assert (E1 : st1 = sum_row_step ndof maxOwned maxShared ocols scols olen slen rowLID pairs lhs rhs st (key,p)) by reflexivity.
      unfold sum_row_step in E1. cbn [snd] in E1. cbn zeta in E1. change (rowLID (p / ndof) + p mod ndof)%nat with (row p) in E1.
      clearbody st1.
      repeat split; intros r.
      + intros k Hr Hk. rewrite A, lsum_cons by auto. rewrite E1. cbn [snd]. 
        destruct (Nat.ltb_spec (row p) maxOwned) as [L|L].
        * cbn [ov]. unfold setrow. destruct (Nat.eqb_spec r (row p)) as [->|Hne].
          -- rewrite Nat.eqb_refl, (row_adds ndof n colLID) by auto. unfold cs. lra.
          -- destruct (Nat.eqb_spec (row p) r); [congruence|lra].
        * destruct (Nat.eqb_spec (row p) r); [lia|]. destruct (Nat.ltb (row p) maxShared); cbn [ov]; lra.
      + intros Hr. rewrite B, lsum_cons by auto. rewrite E1. cbn [snd].
        destruct (Nat.ltb_spec (row p) maxOwned) as [L|L].
        * cbn [orhs]. destruct (Nat.eqb_spec (row p) r) as [->|Hne]; [rewrite addat_eq; lra|rewrite addat_ne by auto; lra].
        * destruct (Nat.eqb_spec (row p) r); [lia|]. destruct (Nat.ltb (row p) maxShared); cbn [orhs]; lra.
      + intros k Hr Hk. rewrite C, lsum_cons by auto. rewrite E1. cbn [snd]. 
        destruct (Nat.ltb_spec (row p) maxOwned) as [L|L].
        * cbn [sv]. destruct (Nat.eqb_spec (row p) r); [lia|lra].
        * destruct (Nat.ltb_spec (row p) maxShared) as [L2|L2]; cbn [sv].
          -- unfold setrow. destruct (Nat.eqb_spec (r - maxOwned) (row p - maxOwned)) as [E|Hne].
             ++ assert (r = row p) by lia. subst r. rewrite Nat.eqb_refl. rewrite (row_adds ndof n colLID) by (auto; lia). unfold cs. lra.
             ++ destruct (Nat.eqb_spec (row p) r) as [E2|]; [rewrite E2 in Hne; lia|lra].
          -- destruct (Nat.eqb_spec (row p) r); [lia|lra].
      + intros Hr. rewrite D, lsum_cons by auto. rewrite E1. cbn [snd].
        destruct (Nat.ltb_spec (row p) maxOwned) as [L|L].
        * cbn [srhs]. destruct (Nat.eqb_spec (row p) r); [lia|lra].
        * destruct (Nat.ltb_spec (row p) maxShared) as [L2|L2]; cbn [srhs].
          -- destruct (Nat.eqb_spec (row p) r) as [->|Hne]; [rewrite addat_eq; lra|rewrite addat_ne by lia; lra].
          -- destruct (Nat.eqb_spec (row p) r); [lia|lra]. }
  specialize (G pairs s Hp). cbn zeta in G |- *. destruct G as (A & B & C & D).
  assert (PS : forall f : nat -> R, lsum (fun kp => f (snd kp)) pairs = lsum f (seq 0 (n*ndof))).
  { intros f. destruct HSort as [HP _]. rewrite <- (lsum_perm _ _ _ HP). unfold unsorted_pairs. rewrite lsum_map. reflexivity. }
  assert (LS : forall r c, lsum (fun kp => if Nat.eqb (row (snd kp)) r then cs c (snd kp) else 0) pairs = lhs_sum ndof n rowLID colLID lhs r c).
  { intros r c. rewrite (PS (fun p => if Nat.eqb (row p) r then cs c p else 0)). unfold lhs_sum. apply lsum_ext. intros p _. fold row.
    destruct (Nat.eqb (row p) r); cbn [andb]; [reflexivity|]. symmetry. apply lsum_zero. reflexivity. }
  assert (RS : forall r, lsum (fun kp => if Nat.eqb (row (snd kp)) r then rhs (snd kp) else 0) pairs = rhs_sum ndof n rowLID rhs r).
  { intros r. rewrite (PS (fun p => if Nat.eqb (row p) r then rhs p else 0)). reflexivity. }
  repeat split; intros.
  - rewrite A by auto. now rewrite LS.
  - rewrite B by auto. now rewrite RS.
  - rewrite C by auto. now rewrite LS.
  - rewrite D by auto. now rewrite RS.
Qed.

(** assembling a list of elements adds the sum of their contributions to every entry (column
    position k of row r) of the owned and of the shared matrix and right-hand side *)
Theorem C14_assembly_adds_exactly : forall es s, (forall e, In e es -> elem_ready e) ->
  let s' := fold_left (fun s e => assemble e s) es s in
  (forall r k, (r < maxOwned)%nat -> (k < olen r)%nat ->
     ov s' r k = ov s r k + lsum (fun e => lhs_sum ndof (en e) (erow e) (ecol e) (elhs e) r (ocols r k)) es) /\
  (forall r, (r < maxOwned)%nat -> orhs s' r = orhs s r + lsum (fun e => rhs_sum ndof (en e) (erow e) (erhs e) r) es) /\
  (forall r k, (maxOwned <= r < maxShared)%nat -> (k < slen (r - maxOwned))%nat ->
     sv s' (r - maxOwned)%nat k = sv s (r - maxOwned)%nat k + lsum (fun e => lhs_sum ndof (en e) (erow e) (ecol e) (elhs e) r (scols (r - maxOwned)%nat k)) es) /\
  (forall r, (maxOwned <= r < maxShared)%nat -> srhs s' (r - maxOwned)%nat = srhs s (r - maxOwned)%nat + lsum (fun e => rhs_sum ndof (en e) (erow e) (erhs e) r) es).
Proof.
  induction es as [|e es IH]; intros s He.
  - cbn [fold_left]. unfold lsum. simpl. repeat split; intros; lra.
  - cbn zeta. cbn [fold_left]. destruct (IH (assemble e s) (fun x H => He x (or_intror H))) as (A & B & C & D). cbn zeta in A, B, C, D.
    destruct (sumInto_spec e s (He e (or_introl eq_refl))) as (A' & B' & C' & D'). cbn zeta in A', B', C', D'.
    repeat split; intros; rewrite lsum_cons.
    + rewrite A, A' by auto. lra.
    + rewrite B, B' by auto. lra.
    + rewrite C, C' by auto. lra.
    + rewrite D, D' by auto. lra.
Qed.

(** so the result does not depend on the order of the elements nor on how ties were sorted *)
Theorem C14_assembly_order_independent : forall es es' s, (forall e, In e es -> elem_ready e) -> Permutation es es' ->
  let s1 := fold_left (fun s e => assemble e s) es s in
  let s2 := fold_left (fun s e => assemble e s) es' s in
  (forall r k, (r < maxOwned)%nat -> (k < olen r)%nat -> ov s1 r k = ov s2 r k) /\
  (forall r, (r < maxOwned)%nat -> orhs s1 r = orhs s2 r) /\
  (forall r k, (r < maxShared - maxOwned)%nat -> (k < slen r)%nat -> sv s1 r k = sv s2 r k) /\
  (forall r, (r < maxShared - maxOwned)%nat -> srhs s1 r = srhs s2 r).
Proof.
  intros es es' s He HP. cbn zeta.
  destruct (C14_assembly_adds_exactly es s He) as (A & B & C & D).
  destruct (C14_assembly_adds_exactly es' s (fun e H => He e (Permutation_in _ (Permutation_sym HP) H))) as (A' & B' & C' & D').
  cbn zeta in *. repeat split; intros.
  - rewrite A, A' by auto. f_equal. now apply lsum_perm.
  - rewrite B, B' by auto. f_equal. now apply lsum_perm.
  - replace r with ((r + maxOwned) - maxOwned)%nat by lia. rewrite C, C' by (replace (r + maxOwned - maxOwned)%nat with r by lia; auto; lia). f_equal. now apply lsum_perm.
  - replace r with ((r + maxOwned) - maxOwned)%nat by lia. rewrite D, D' by lia. f_equal. now apply lsum_perm.
Qed.
End Elements.

(* ------------------------------------------------------------------ where it fails *)
(** Three dofs per node and two nodes of one element sharing a row block (a periodic direction one
    element thick): the specialised path drops the second node's contribution although every column is
    in the graph. *)
Definition two_images (e : nat) : Z := 0%Z.
Definition pr (z : Z) (n : nat) : Z * nat := (z, n).
Definition merged_pairs : list (Z * nat) := [pr 0 0;pr 0 3;pr 1 1;pr 1 4;pr 2 2;pr 2 5].
Definition cols3 (k : nat) : Z := Z.of_nat k.
Theorem C14_vec3_shared_block_refuted :
  is_sorting 3 2 two_images merged_pairs /\ row_ready 3 2 two_images cols3 3 /\
  (* required: entries q = 0 and q = 3 are both added to column 0; actual: only q = 0 *)
  sum_into_row 3 cols3 3 merged_pairs (fun _ => 1) (fun _ => 0) 0%nat = 1 /\
  lsum (fun q => if Z.eqb (colOf 3 two_images q) (cols3 0) then 1 else 0) (seq 0 (2*3)) = 2.
Proof.
  split; [|split; [|split]].
  - split.
    + change (unsorted_pairs 3 2 two_images) with [pr 0 0;pr 1 1;pr 2 2;pr 0 3;pr 1 4;pr 2 5]. unfold merged_pairs.
      apply perm_skip.
      apply (Permutation_cons_app [pr 1 1;pr 1 1] [] (pr 0 0)) || idtac.
      transitivity ([pr 0 3;pr 1 1;pr 2 2;pr 1 4;pr 2 5]).
      { apply Permutation_sym. apply (Permutation_middle [pr 1 1;pr 2 2] [pr 1 4;pr 2 5] (pr 0 3)). }
      apply perm_skip, perm_skip. apply (Permutation_middle [pr 2 2] [pr 2 5] (pr 1 4)) || apply perm_swap.
    + unfold merged_pairs, key_le. repeat (constructor; [|repeat constructor; cbn; lia]). constructor.
  - split; [|split].
    + intros a b Ha Hb. unfold cols3. lia.
    + intros q Hq. exists (q mod 3)%nat. split; [apply Nat.mod_upper_bound; lia|]. unfold cols3, colOf, two_images. lia.
    + intros _. exists 1%nat. split; [reflexivity|]. intros b Hb. assert (b = 0)%nat by lia. subst b. split; [exists 0%Z; reflexivity|split; reflexivity].
  - unfold sum_into_row, merged_pairs. cbn. unfold addat. cbn. lra.
  - unfold lsum, colOf, two_images, cols3. cbn. lra.
Qed.

(** A column missing from the row does not only lose its own contribution: all the later (larger)
    columns of the element are lost too, silently. *)
Theorem C14_missing_column_drops_following_refuted : forall cols len pairs input v key p k,
  (forall j, (j < len)%nat -> cols j <> key) ->
  sum_into_row_gen cols len ((key, p) :: pairs) input v k = v k.
Proof.
  intros cols len pairs input v key p k Hm. unfold sum_into_row_gen. cbn [fold_left].
  assert (S0 : forall n off, (off + n = len)%nat -> seek cols n off key = len).
  { induction n as [|n IH]; intros off E; simpl; [lia|]. destruct (Z.eqb_spec (cols off) key) as [E'|]; [exfalso; apply (Hm off); auto; lia|]. apply IH. lia. }
  unfold row_step at 2. cbn [fst snd]. rewrite S0 by lia. rewrite Nat.ltb_irrefl.
  assert (G : forall pairs, fold_left (row_step cols len input) pairs (v, len) = (v, len)).
  { induction pairs0 as [|kp ps IH]; [reflexivity|]. cbn [fold_left]. unfold row_step at 2. cbn [fst snd]. rewrite Nat.sub_diag. cbn [seek]. rewrite Nat.ltb_irrefl. exact IH. }
  rewrite G. reflexivity.
Qed.

(* ------------------------------------------------------------------ witness: a two-node edge, one dof, owned row 0 and shared row *)
Example C14_witness :
  let e := {| en := 2; erow := fun i => nth i [0;2]%nat 0%nat; ecol := fun i => nth i [3;1]%Z 0%Z;
              epairs := [pr 1 1;pr 3 0]; elhs := fun p q => INR (p + 2*q + 1); erhs := fun p => INR p |} in
  elem_ready 1 2 3 (fun _ k => nth k [1;3]%Z 9%Z) (fun _ k => nth k [0;1;3]%Z 9%Z) (fun _ => 2%nat) (fun _ => 3%nat) e.
Proof.
  cbn zeta. split; [|split].
  - split; [cbn; apply perm_swap|]. repeat (constructor; [|repeat constructor; unfold key_le, pr; cbn; lia]). constructor.
  - intros; discriminate.
  - intros p Hp. cbn [en ecol erow] in *.
    assert (CI1 : cols_incr (fun k => nth k [1;3]%Z 9%Z) 2) by (intros a b H1 H2; destruct a as [|[|a]], b as [|[|b]]; simpl; lia).
    assert (CI2 : cols_incr (fun k => nth k [0;1;3]%Z 9%Z) 3) by (intros a b H1 H2; destruct a as [|[|[|a]]], b as [|[|[|b]]]; simpl; lia).
    split; intros Hr; (split; [assumption|split; [|intros; discriminate]]); intros q Hq;
    (assert (q = 0 \/ q = 1)%nat as [-> | ->] by lia); unfold colOf; cbn.
    + exists 1%nat; split; [lia|reflexivity]. 
    + exists 0%nat; split; [lia|reflexivity].
    + exists 2%nat; split; [lia|reflexivity].
    + exists 1%nat; split; [lia|reflexivity].
Qed.
