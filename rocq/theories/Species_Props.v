(** * C100: mass fractions after the segregated solve *)
From Coq Require Import Reals List Bool Arith Lia Lra Permutation.
From Verif Require Import Edge_Model Edge_Proofs Elem_Model Wall_Model Aux_Model Species_Model.
Import ListNotations.
Open Scope R_scope.

(** sum of all mass fractions at a node *)
Definition total (nspec : nat) (y : yfield) (n : nat) : R := sumn nspec (y n).

Lemma lb_pos : 0 < lowerBound. Proof. unfold lowerBound. lra. Qed.
Lemma clipped_bounds v : lowerBound <= clipped v <= upperBound.
Proof.
  unfold clipped, upperBound. pose proof lb_pos. split.
  - apply Rmin_glb; [lra|apply Rmax_l].
  - apply Rmin_l.
Qed.
Lemma clipped_id v : lowerBound <= v <= upperBound -> clipped v = v.
Proof. intros [H1 H2]. unfold clipped. rewrite Rmax_right by lra. now rewrite Rmin_right by lra. Qed.
Lemma fold_sumn f n : fold_left (fun s i => s + f i) (seq 0 n) 0 = sumn n f.
Proof. reflexivity. Qed.

Lemma nth_values M nspec y n : (0 < nspec)%nat -> n_mine M n = true ->
  (forall i, (i < nspec - 1)%nat -> nth_mass_fraction M nspec y n i = clipped (y n i))
  /\ nth_mass_fraction M nspec y n (nspec - 1)%nat = 1 - sumn (nspec - 1) (fun i => clipped (y n i)).
Proof.
  intros Hn Hm. unfold nth_mass_fraction. rewrite Hm. split.
  - intros i Hi. cbv zeta. destruct (Nat.eqb_spec i (nspec - 1)); [lia|]. destruct (Nat.ltb_spec i (nspec - 1)); [reflexivity|lia].
  - cbv zeta. now rewrite Nat.eqb_refl, fold_sumn.
Qed.
Lemma nth_total M nspec y n : (0 < nspec)%nat -> n_mine M n = true -> total nspec (nth_mass_fraction M nspec y) n = 1.
Proof.
  intros Hn Hm. destruct (nth_values M nspec y n Hn Hm) as [A B]. unfold total.
  replace nspec with (S (nspec - 1)) at 1 by lia. rewrite sumn_S, B.
  rewrite (sumn_ext (nspec - 1) _ (fun i => clipped (y n i))) by (intros; now apply A). ring.
Qed.
Lemma update_last M three yN yNm1 ybc solve nspec m y c :
  exists y1 c1, species_update M three yN yNm1 ybc solve nspec (S m) y c = (nth_mass_fraction M nspec y1, c1).
Proof.
  unfold species_update. rewrite seq_S, fold_left_app. cbn [fold_left]. unfold one_pass at 1. eexists. eexists. reflexivity.
Qed.

(** Whatever the solver returns, at every owned or shared node the mass fractions sum to one, ... *)
Theorem C100_mass_fractions_sum_to_one : forall M three yN yNm1 ybc solve nspec maxIt y c n,
  (0 < nspec)%nat -> (0 < maxIt)%nat -> n_mine M n = true ->
  total nspec (fst (species_update M three yN yNm1 ybc solve nspec maxIt y c)) n = 1.
Proof.
  intros M three yN yNm1 ybc solve nspec maxIt y c n Hs Hm Hn. destruct maxIt as [|m]; [lia|].
  destruct (update_last M three yN yNm1 ybc solve nspec m y c) as (y1 & c1 & ->). cbn [fst]. now apply nth_total.
Qed.
(** ... every solved mass fraction lies in [1e-16, 1 + 1e-16] and the remaining one does not exceed one. *)
Theorem C100_solved_species_within_bounds : forall M three yN yNm1 ybc solve nspec maxIt y c n,
  (0 < nspec)%nat -> (0 < maxIt)%nat -> n_mine M n = true ->
  let y' := fst (species_update M three yN yNm1 ybc solve nspec maxIt y c) in
  (forall k, (k < nspec - 1)%nat -> 1/10^16 <= y' n k <= 1 + 1/10^16)
  /\ y' n (nspec - 1)%nat <= 1
  /\ (sumn (nspec - 1) (y' n) <= 1 -> 0 <= y' n (nspec - 1)%nat).
Proof.
  intros M three yN yNm1 ybc solve nspec maxIt y c n Hs Hm Hn y'. destruct maxIt as [|m]; [lia|].
  destruct (update_last M three yN yNm1 ybc solve nspec m y c) as (y1 & c1 & E).
  subst y'. rewrite E. cbn [fst]. destruct (nth_values M nspec y1 n Hs Hn) as [A B]. split; [|split].
  - intros k Hk. rewrite A by assumption. apply clipped_bounds.
  - rewrite B. assert (0 <= sumn (nspec - 1) (fun i => clipped (y1 n i))); [|lra].
    apply sumn_nonneg. intros i _. pose proof (clipped_bounds (y1 n i)). pose proof lb_pos. lra.
  - rewrite B, (sumn_ext (nspec - 1) _ (fun i => clipped (y1 n i))) by (intros; now apply A). lra.
Qed.

(** ** what the update adds *)
Section Pass.
Variable M : mesh_nodes.
Variable three : bool.
Variable yN yNm1 ybc : yfield.
Variable solve : nat -> nat -> yfield -> cur -> nat -> R.
(** the data of one species, everywhere the fields are visited *)
Definition of_species (k : nat) (y : yfield) (c : cur) : Prop := forall n, visits M n = true ->
  c_np1 c n = y n k /\ c_n c n = yN n k /\ (three = true -> c_nm1 c n = yNm1 n k) /\ c_bc c n = ybc n k.
Lemma set_current_of k y c : of_species k y (set_current M three yN yNm1 ybc k y c).
Proof.
  intros n Hn. unfold set_current, take. cbn [c_np1 c_n c_nm1 c_bc]. rewrite Hn. repeat split; try reflexivity.
  intros ->. now rewrite Hn.
Qed.
Lemma one_species_eff i st k n : visits M n = true ->
  let c := set_current M three yN yNm1 ybc k (fst st) (snd st) in
  fst (one_species M three yN yNm1 ybc solve i st k) n k = fst st n k + solve i k (fst st) c n
  /\ forall j, j <> k -> fst (one_species M three yN yNm1 ybc solve i st k) n j = fst st n j.
Proof.
  intros Hn c. unfold one_species. cbn [fst]. fold c. unfold put. rewrite Hn, Nat.eqb_refl. cbn [andb]. split.
  - rewrite (proj1 (set_current_of k (fst st) (snd st) n Hn) : c_np1 c n = _). ring.
  - intros j Hj. destruct (Nat.eqb_spec j k); [contradiction|reflexivity].
Qed.
(** the equation of a species reads that species only *)
Definition reads_own (i : nat) : Prop := forall k y y' c c', (forall n, visits M n = true -> y n k = y' n k) ->
  of_species k y c -> of_species k y' c' -> forall n, visits M n = true -> solve i k y c n = solve i k y' c' n.
Lemma pass_any_order i : reads_own i -> forall order, NoDup order -> forall st n, visits M n = true ->
  let st' := fold_left (one_species M three yN yNm1 ybc solve i) order st in
  (forall k c, In k order -> of_species k (fst st) c -> fst st' n k = fst st n k + solve i k (fst st) c n)
  /\ (forall k, ~ In k order -> fst st' n k = fst st n k).
Proof.
  intros Hown. induction order as [|k0 order IH]; intros Hd st n Hn; cbn [fold_left]; [split; [intros ? ? []|reflexivity]|].
  inversion Hd as [|? ? D1 D2]; subst.
  set (st1 := one_species M three yN yNm1 ybc solve i st k0).
  assert (Other : forall m j, visits M m = true -> j <> k0 -> fst st1 m j = fst st m j)
    by (intros m j Hm Hj; apply (proj2 (one_species_eff i st k0 m Hm)); assumption).
  destruct (IH D2 st1 n Hn) as [A B]. split.
  - intros k c [<-|Hk] Hc.
    + rewrite B by assumption. unfold st1. rewrite (proj1 (one_species_eff i st k0 n Hn)). f_equal.
      apply Hown; [reflexivity|apply set_current_of|assumption|assumption].
    + assert (Hne : k <> k0) by (intros ->; contradiction).
      assert (Hc1 : of_species k (fst st1) c).
      { intros m Hm. destruct (Hc m Hm) as (C1 & C2 & C3 & C4). rewrite Other by assumption. auto. }
      rewrite (A k c Hk Hc1), Other by assumption. f_equal. apply Hown; try assumption. intros m Hm. now apply Other.
  - intros k Hk. rewrite B by (intros Q; apply Hk; now right). apply Other; [assumption|]. intros ->. apply Hk. now left.
Qed.
End Pass.

(** When the equation of each species reads its own fields only, the species can be solved in any order: each solved one
    gets its own increment, computed from the values before the sweep, then clipped. *)
Theorem C100_species_order_irrelevant : forall M three yN yNm1 ybc solve nspec i order st n,
  (0 < nspec)%nat -> n_mine M n = true -> reads_own M three yN yNm1 ybc solve i -> Permutation order (seq 0 (nspec - 1)) ->
  let y' := nth_mass_fraction M nspec (fst (fold_left (one_species M three yN yNm1 ybc solve i) order st)) in
  (forall k c, (k < nspec - 1)%nat -> of_species M three yN yNm1 ybc k (fst st) c ->
     y' n k = Rmin (1 + 1/10^16) (Rmax (1/10^16) (fst st n k + solve i k (fst st) c n)))
  /\ y' n (nspec - 1)%nat = 1 - sumn (nspec - 1) (y' n).
Proof.
  intros M three yN yNm1 ybc solve nspec i order st n Hs Hn Hown Hp y'.
  assert (Hv : visits M n = true) by (unfold visits; rewrite Hn; apply orb_true_r).
  assert (Hd : NoDup order) by (apply (Permutation_NoDup (Permutation_sym Hp)), seq_NoDup).
  destruct (pass_any_order M three yN yNm1 ybc solve i Hown order Hd st n Hv) as [A _].
  destruct (nth_values M nspec (fst (fold_left (one_species M three yN yNm1 ybc solve i) order st)) n Hs Hn) as [B C].
  split.
  - intros k c Hk Hc. unfold y'. rewrite B by assumption.
    rewrite (A k c); [reflexivity| |assumption]. apply (Permutation_in _ (Permutation_sym Hp)). apply in_seq. lia.
  - unfold y' at 1. rewrite C. f_equal. apply sumn_ext. intros k Hk. unfold y'. now rewrite B.
Qed.
(** A realizable field that solves its equations (zero increments) is left alone. *)
Theorem C100_converged_fields_kept : forall M three yN yNm1 ybc solve nspec maxIt y c n k,
  (0 < nspec)%nat -> (forall i k y c n, solve i k y c n = 0) ->
  n_mine M n = true -> (forall k, (k < nspec - 1)%nat -> 1/10^16 <= y n k <= 1 + 1/10^16) -> total nspec y n = 1 -> (k < nspec)%nat ->
  fst (species_update M three yN yNm1 ybc solve nspec maxIt y c) n k = y n k.
Proof.
  intros M three yN yNm1 ybc solve nspec maxIt y c n k Hs Hz Hn Hb Ht Hk.
  assert (Hv : visits M n = true) by (unfold visits; rewrite Hn; apply orb_true_r).
  enough (H : forall m, forall j, (j < nspec)%nat -> fst (species_update M three yN yNm1 ybc solve nspec m y c) n j = y n j) by now apply H.
  induction m as [|m IH]; intros j Hj; [reflexivity|].
  unfold species_update in *. rewrite seq_S, fold_left_app. cbn [fold_left].
  pose (st := fold_left (one_pass M three yN yNm1 ybc solve nspec) (seq 0 m) (y, c)).
  change (forall j, (j < nspec)%nat -> fst st n j = y n j) in IH.
  change (fst (one_pass M three yN yNm1 ybc solve nspec st (0 + m)) n j = y n j). clearbody st.
  assert (Hown : reads_own M three yN yNm1 ybc solve (0 + m)) by (intros ? ? ? ? ? _ _ _ ? _; now rewrite !Hz).
  destruct (pass_any_order M three yN yNm1 ybc solve (0 + m) Hown (seq 0 (nspec - 1)) ltac:(apply seq_NoDup) st n Hv) as [A B].
  assert (E : forall j, fst (fold_left (one_species M three yN yNm1 ybc solve (0 + m)) (seq 0 (nspec - 1)) st) n j = fst st n j).
  { intros l. destruct (in_dec Nat.eq_dec l (seq 0 (nspec - 1))) as [I|I]; [|now apply B].
    rewrite (A l (set_current M three yN yNm1 ybc l (fst st) (snd st)) I); [rewrite Hz; ring|apply set_current_of]. }
  unfold one_pass. cbn [fst].
  destruct (nth_values M nspec (fst (fold_left (one_species M three yN yNm1 ybc solve (0 + m)) (seq 0 (nspec - 1)) st)) n Hs Hn) as [C D].
  assert (Cl : forall l, (l < nspec - 1)%nat -> clipped (fst (fold_left (one_species M three yN yNm1 ybc solve (0 + m)) (seq 0 (nspec - 1)) st) n l) = y n l).
  { intros l Hl. rewrite E, IH by lia. apply clipped_id. now apply Hb. }
  destruct (Nat.eq_dec j (nspec - 1)) as [->|Nj].
  - rewrite D, (sumn_ext (nspec - 1) _ (y n)) by (intros; now apply Cl). unfold total in Ht.
    replace nspec with (S (nspec - 1)) in Ht at 1 by lia. rewrite sumn_S in Ht. lra.
  - rewrite C by lia. apply Cl. lia.
Qed.

(** ** what is not true *)
Definition all_mine := mkN (fun _ => true) false.
Definition cur0 := mkCur (fun _ => 0) (fun _ => 0) (fun _ => 0) (fun _ => 0).
Definition y3 : yfield := fun _ k => match k with O => 4/10 | S O => 4/10 | S (S O) => 2/10 | _ => 0 end.
(** The remaining species can become negative: the others are clipped one by one, not together. *)
Theorem C100_last_species_nonnegative_refuted :
  ~ (forall solve y n, (forall k, 0 <= y n k <= 1) -> total 3 y n = 1 ->
       0 <= fst (species_update all_mine false y y y solve 3 1 y cur0) n 2%nat).
Proof.
  intros H. specialize (H (fun _ _ _ _ _ => 3/10) y3 0%nat).
  assert (P1 : forall k, 0 <= y3 0%nat k <= 1) by (intros [|[|[|k]]]; unfold y3; lra).
  assert (P2 : total 3 y3 0%nat = 1) by (unfold total, sumn, y3; cbn; lra).
  specialize (H P1 P2). clear P1 P2.
  destruct (C100_species_order_irrelevant all_mine false y3 y3 y3 (fun _ _ _ _ _ => 3/10) 3 0 (seq 0 2) (y3, cur0) 0%nat
      ltac:(lia) eq_refl ltac:(intros ? ? ? ? ? _ _ _ ? _; reflexivity) (Permutation_refl _)) as [A B].
  change (fst (species_update all_mine false y3 y3 y3 (fun _ _ _ _ _ => 3/10) 3 1 y3 cur0)) with
      (nth_mass_fraction all_mine 3 (fst (fold_left (one_species all_mine false y3 y3 y3 (fun _ _ _ _ _ => 3/10) 0) (seq 0 2) (y3, cur0)))) in H.
  change (3 - 1)%nat with 2%nat in *. rewrite B in H. unfold sumn in H. clear B.
  change (fold_left ?f (seq 0 2) 0) with (f (f 0 0%nat) 1%nat) in H. cbv beta in H.
  rewrite (A 0%nat _ ltac:(lia) (set_current_of all_mine false y3 y3 y3 0%nat y3 cur0)),
          (A 1%nat _ ltac:(lia) (set_current_of all_mine false y3 y3 y3 1%nat y3 cur0)) in H.
  cbn [fst] in H. unfold y3 in H. rewrite Rmax_right, Rmin_right in H by (try rewrite Rmax_right; lra). lra.
Qed.
(** A species that is absent does not stay absent: zero becomes 1e-16. *)
Theorem C100_absent_species_stays_absent_refuted :
  ~ (forall y n, total 2 y n = 1 -> y n 0%nat = 0 ->
       fst (species_update all_mine false y y y (fun _ _ _ _ _ => 0) 2 1 y cur0) n 0%nat = 0).
Proof.
  intros H. specialize (H (fun _ k => match k with O => 0 | _ => 1 end) 0%nat ltac:(unfold total, sumn; cbn; lra) eq_refl).
  pose proof (C100_solved_species_within_bounds all_mine false (fun _ k => match k with O => 0 | _ => 1 end) (fun _ k => match k with O => 0 | _ => 1 end)
    (fun _ k => match k with O => 0 | _ => 1 end) (fun _ _ _ _ _ => 0) 2 1 (fun _ k => match k with O => 0 | _ => 1 end) cur0 0%nat ltac:(lia) ltac:(lia) eq_refl) as (B & _ & _).
  specialize (B 0%nat ltac:(lia)). rewrite H in B. lra.
Qed.
(** On aura copies the solved species are updated but neither clipped nor completed, so the sum is lost there. *)
Theorem C100_aura_copies_sum_to_one_refuted :
  ~ (forall solve y n, n_mine (mkN (fun _ => false) true) n = false -> total 2 y n = 1 ->
       total 2 (fst (species_update (mkN (fun _ => false) true) false y y y solve 2 1 y cur0)) n = 1).
Proof.
  intros H. specialize (H (fun _ _ _ _ _ => 1/2) (fun _ _ => 1/2) 0%nat eq_refl ltac:(unfold total, sumn; cbn; lra)).
  unfold total, sumn in H. cbn in H. lra.
Qed.
(** With a single species the averaged residual is a division by zero. *)
Theorem C100_single_species_residual_undefined : forall s, averaged_residual 1 s = None.
Proof. intros s. unfold averaged_residual, divo. cbn [Nat.sub INR]. destruct (Req_EM_T 0 0); [reflexivity|contradiction]. Qed.
Theorem C100_residual_is_mean : forall nspec s, (1 < nspec)%nat -> averaged_residual nspec s = Some (s / INR (nspec - 1)).
Proof.
  intros nspec s H. unfold averaged_residual, divo. destruct (Req_EM_T (INR (nspec - 1)) 0) as [E|_]; [|reflexivity].
  apply (not_INR (nspec - 1) 0) in E; [destruct E|lia].
Qed.
(** A case: two inner passes for three species at two nodes. *)
Example C100_case : let y := fun n k => match n, k with O, O => 1/4 | O, S O => 1/4 | O, _ => 1/2 | _, O => 1/10 | _, S O => 6/10 | _, _ => 3/10 end in
  let y' := fst (species_update all_mine false y y y (fun _ k _ c n => c_n c n - c_np1 c n) 3 2 y cur0) in
  forall n, total 3 y' n = 1 /\ y' n 2%nat <= 1.
Proof.
  intros y y' n. split.
  - apply C100_mass_fractions_sum_to_one; [lia|lia|reflexivity].
  - apply (C100_solved_species_within_bounds all_mine false y y y (fun _ k _ c n => c_n c n - c_np1 c n) 3 2 y cur0 n); [lia|lia|reflexivity].
Qed.
