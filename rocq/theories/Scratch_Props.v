(** C106: scratch memory of the element algorithms. *)
Require Import List Arith Bool Lia.
From Verif Require Import Scratch_Model.
Import ListNotations.

Lemma sum_cons a l : sum (a :: l) = a + sum l. Proof. reflexivity. Qed.
Lemma sum_app l l' : sum (l ++ l') = sum l + sum l'.
Proof. induction l as [|a l IH]; cbn [app]; [reflexivity|]. rewrite !sum_cons, IH. lia. Qed.
Lemma sum_le {A} (f g : A -> nat) l : (forall x, In x l -> f x <= g x) -> sum (map f l) <= sum (map g l).
Proof. induction l as [|x l IH]; intros H; [cbn; lia|]. cbn [map]. rewrite !sum_cons. pose proof (H x (or_introl eq_refl)). specialize (IH (fun y Hy => H y (or_intror Hy))). lia. Qed.
Lemma sum_flat {A B} (f : A -> list B) (g : B -> nat) l : sum (map g (flat_map f l)) = sum (map (fun x => sum (map g (f x))) l).
Proof. induction l as [|x l IH]; [reflexivity|]. cbn [flat_map map]. rewrite map_app, sum_app, IH. reflexivity. Qed.
Lemma asked_in s l : asked s l = true <-> exists r, In r l /\ s r = true.
Proof. apply existsb_exists. Qed.
Lemma asked_mono s l l' : (forall r, In r l -> In r l') -> asked s l = true -> asked s l' = true.
Proof. intros I H. apply asked_in in H. destruct H as (r & A & B). apply asked_in. exists r. auto. Qed.
Lemma when_le b b' n n' : (b = true -> b' = true) -> n <= n' -> when b n <= when b' n'.
Proof. intros H L. destruct b; cbn; [rewrite (H eq_refl); cbn; lia|lia]. Qed.
Lemma sum_onev b v n : sum (map snd (onev b v n)) = when b n.
Proof. destruct b; cbn; lia. Qed.

(** ** the budget covers the views *)
(** Whatever is requested, of whatever element, the memory counted for the results and work arrays of a coordinate field is at least what the views take, in both versions of the count. *)
Theorem C106_budget_covers_views : forall info z ne s, npe z <= ne -> npf z <= ne -> sum (map snd (views z s)) <= budget info z ne s.
Proof.
  intros info z ne s E F. unfold views, budget. rewrite !map_app, !sum_app, !sum_onev.
  assert (M : forall a b, a * npe z * b <= ne * a * b) by (intros; rewrite (Nat.mul_comm ne a); apply Nat.mul_le_mono_r, Nat.mul_le_mono_l, E).
  assert (Mf : forall a b, a * npf z * b <= ne * a * b) by (intros; rewrite (Nat.mul_comm ne a); apply Nat.mul_le_mono_r, Nat.mul_le_mono_l, F).
  assert (A : sum (map snd (flat_map (fun r => if s r then made z r else []) reqs)) <= sum (map (fun r => when (s r) (cost z ne r)) reqs)).
  { rewrite sum_flat. apply sum_le. intros r _. destruct (s r); [|cbn; lia]. unfold when. pose proof (M (nF z) (nD z)). pose proof (M (nS z) (nD z)). pose proof (M (nV z) (nD z)). pose proof (M (nM z) (nD z)).
    destruct r; cbn [made map snd sum fold_right cost]; rewrite ?Nat.add_0_r; try assumption; try lia; nia. }
  assert (B1 : when (asked s [FEM_FACE_NORMAL; FEM_FACE_DET_J]) (nF z * npf z * nD z) <= when (asked s (FEM_FACE_DET_J :: FEM_FACE_NORMAL :: if info then [FEM_FACE_GRAD_OP] else [])) (ne * nF z * nD z)).
  { apply when_le; [apply asked_mono; cbn; intuition|apply Mf]. }
  assert (B2 : when (asked s [SCS_GRAD_OP; SCS_SHIFTED_GRAD_OP; SCS_GIJ]) (nS z * npe z * nD z) <= when (asked s [SCS_GRAD_OP; SCS_SHIFTED_GRAD_OP; SCS_GIJ]) (ne * nS z * nD z)) by (apply when_le; auto).
  assert (B3 : when (asked s [SCV_GRAD_OP; SCV_SHIFTED_GRAD_OP]) (nV z * npe z * nD z) <= when (asked s [SCV_GRAD_OP; SCV_SHIFTED_GRAD_OP]) (ne * nV z * nD z)) by (apply when_le; auto).
  assert (B4 : when (asked s [SCS_FACE_GRAD_OP; SCS_SHIFTED_FACE_GRAD_OP; FEM_FACE_GRAD_OP; FEM_FACE_DET_J]) (nF z) <= when (asked s [SCS_FACE_GRAD_OP; SCS_SHIFTED_FACE_GRAD_OP; FEM_FACE_GRAD_OP; FEM_FACE_DET_J; FEM_FACE_NORMAL]) (nF z)).
  { apply when_le; [apply asked_mono; cbn; intuition|lia]. }
  assert (B5 : when (asked s [FEM_GRAD_OP; FEM_SHIFTED_GRAD_OP; FEM_DET_J; FEM_NORMAL; FEM_GIJ]) (nM z * npe z * nD z) <= when (asked s [FEM_GRAD_OP; FEM_SHIFTED_GRAD_OP; FEM_DET_J; FEM_NORMAL; FEM_GIJ]) (ne * nM z * nD z)) by (apply when_le; auto).
  assert (B6 : when (asked s [FEM_GRAD_OP; FEM_SHIFTED_GRAD_OP; FEM_DET_J]) (nM z) <= when (asked s (FEM_GRAD_OP :: FEM_SHIFTED_GRAD_OP :: FEM_DET_J :: if info then [] else [FEM_NORMAL])) (nM z)).
  { apply when_le; [apply asked_mono; cbn; intuition|lia]. }
  lia.
Qed.
Lemma field_fits ne f : prod (field_view ne f) = field_cost ne f.
Proof.
  unfold field_view, field_cost. destruct (f_rank f), (f_d2 f) as [|[|k]]; cbn; rewrite ?Nat.mul_1_r; try (destruct (Nat.eqb_spec (f_d1 f) 1) as [->|]); cbn; try lia; nia.
Qed.
(** The doubles of all fields and all coordinate types together fit, with eight left over; for fields the count is exact. *)
Theorem C106_scratch_fits : forall info z ne fs ss, npe z <= ne -> npf z <= ne -> taken z ne fs ss + 8 <= num_scalars info z ne fs ss.
Proof.
  intros info z ne fs ss E F. unfold taken, num_scalars. rewrite (map_ext (fun f => prod (field_view ne f)) (field_cost ne)) by (intro; apply field_fits).
  assert (sum (map (fun s => sum (map snd (views z s))) ss) <= sum (map (budget info z ne) ss)) by (apply sum_le; intros; now apply C106_budget_covers_views). lia.
Qed.
(** The bytes asked of Kokkos for a thread cover the lanes' scalar views, the vector views, both element systems and the two integer arrays. *)
Theorem C106_bytes_suffice : forall simd n info z ne fs ss, 1 <= simd -> npe z <= ne -> npf z <= ne ->
  bytes_used simd n (taken z ne fs ss) <= bytes_given simd (n * n) n n (num_scalars info z ne fs ss).
Proof.
  intros simd n info z ne fs ss S E F. pose proof (C106_scratch_fits info z ne fs ss E F) as H. unfold bytes_used, bytes_given.
  set (t := taken z ne fs ss) in *. set (b := num_scalars info z ne fs ss) in *. set (q := n * n).
  assert (A : simd * t <= simd * b) by (apply Nat.mul_le_mono_l; lia). assert (B : n <= simd * n) by nia. assert (C : q <= simd * q) by nia. nia.
Qed.
(** face-element algorithms: two sets of views share one budget *)
Theorem C106_bytes_suffice_face : forall simd n z1 n1 fs1 ss1 z2 n2 fs2 ss2, 1 <= simd -> npe z1 <= n1 -> npf z1 <= n1 -> npe z2 <= n2 -> npf z2 <= n2 ->
  bytes_used simd n (taken z1 n1 fs1 ss1 + taken z2 n2 fs2 ss2) <= bytes_given simd (n * n) n n (num_scalars false z1 n1 fs1 ss1 + num_scalars true z2 n2 fs2 ss2).
Proof.
  intros simd n z1 n1 fs1 ss1 z2 n2 fs2 ss2 S E1 F1 E2 F2. pose proof (C106_scratch_fits false z1 n1 fs1 ss1 E1 F1) as H1. pose proof (C106_scratch_fits true z2 n2 fs2 ss2 E2 F2) as H2.
  unfold bytes_used, bytes_given. set (t := taken z1 n1 fs1 ss1 + taken z2 n2 fs2 ss2). set (b := num_scalars false z1 n1 fs1 ss1 + num_scalars true z2 n2 fs2 ss2). set (q := n * n).
  assert (L : t <= b) by (unfold t, b; lia). assert (A : simd * t <= simd * b) by (apply Nat.mul_le_mono_l; lia). assert (B : n <= simd * n) by nia. assert (C : q <= simd * q) by nia. nia.
Qed.
(** Views placed one after the other never overlap and end inside the budget. *)
Theorem C106_views_disjoint : forall l o b, sum l <= b ->
  (forall i p, nth_error (place o l) i = Some p -> o <= fst p /\ fst p + snd p <= o + b)
  /\ (forall i j p q, i < j -> nth_error (place o l) i = Some p -> nth_error (place o l) j = Some q -> fst p + snd p <= fst q).
Proof.
  induction l as [|n l IH]; intros o b H; [split; [intros [|i] p; discriminate|intros [|i] j p q _; discriminate]|].
  rewrite sum_cons in H. destruct (IH (o + n) (b - n)) as (A & B); [lia|]. split.
  - intros [|i] p; cbn; [intros [= <-]; cbn; lia|]. intros P. apply A in P. lia.
  - intros [|i] [|j] p q L; try lia; cbn.
    + intros [= <-] Q. apply A in Q. cbn. lia.
    + intros P Q. apply (B i j); [lia|assumption|assumption].
Qed.
(** ** what is requested is there *)
(** the documented extents of each array: points times nodes times dimension *)
Definition extent (z : sizes) (r : req) (v : vname) : nat :=
  match v with
  | Fc_areav | Normal_fc_fem => nF z * nD z | Scs_areav => nS z * nD z | Normal_fem => nM z * nD z
  | Dndx_fc_elem | Dndx_shifted_fc_elem => nF z * npe z * nD z
  | Dndx | Dndx_shifted | Deriv => nS z * npe z * nD z
  | Dndx_scv | Dndx_scv_shifted | Deriv_scv => nV z * npe z * nD z
  | Dndx_fem | Deriv_fem => nM z * npe z * nD z
  | GijUpper | GijLower => match r with SCS_GIJ => nS z | _ => nM z end * nD z * nD z
  | Deriv_fc => nF z * npf z * nD z
  | Scv_volume | Det_j_scv => nV z | Det_j_fc => nF z | Det_j => nS z | Det_j_fem => nM z
  end.
Lemma all_reqs r : In r reqs.
Proof. destruct r; cbn; tauto. Qed.
(** If a set of requests is accepted, every array that is filled for a request, result or work array, exists with the extents of that request. *)
Theorem C106_requested_views_exist : forall z s l r v, create z s = Some l -> s r = true -> In v (results r ++ work r) -> In (v, extent z r v) l.
Proof.
  intros z s l r v C R I. unfold create in C. destruct (_ && _ && _)%bool; [|discriminate]. injection C as <-.
  assert (K : forall q w, s q = true -> In w (made z q) -> In w (views z s)).
  { intros q w Q W. unfold views. apply in_or_app. left. apply in_flat_map. exists q. split; [apply all_reqs|]. now rewrite Q. }
  assert (T : forall b w, In b (onev true w (snd b)) <-> b = (w, snd b)) by (intros; cbn; intuition congruence).
  assert (AS : forall lst, In r lst -> asked s lst = true) by (intros lst H; apply asked_in; exists r; auto).
  apply in_app_or in I. destruct I as [I|I].
  - destruct r; cbn in I; repeat (destruct I as [<-|I]); try contradiction; try (eapply K; [exact R|cbn; tauto]).
    + unfold views. rewrite (AS [FEM_GRAD_OP; FEM_SHIFTED_GRAD_OP; FEM_DET_J]) by (cbn; tauto). do 8 (apply in_or_app; right). now left.
    + unfold views. rewrite (AS [SCS_FACE_GRAD_OP; SCS_SHIFTED_FACE_GRAD_OP; FEM_FACE_GRAD_OP; FEM_FACE_DET_J]) by (cbn; tauto). do 4 (apply in_or_app; right). apply in_or_app. left. now left.
  - destruct r; cbn in I; repeat (destruct I as [<-|I]); try contradiction; unfold views;
    first [ rewrite (AS [FEM_FACE_NORMAL; FEM_FACE_DET_J]) by (cbn; tauto); apply in_or_app; right; apply in_or_app; left; now left
          | rewrite (AS [SCS_GRAD_OP; SCS_SHIFTED_GRAD_OP; SCS_GIJ]) by (cbn; tauto); do 2 (apply in_or_app; right); apply in_or_app; left; now left
          | rewrite (AS [SCV_GRAD_OP; SCV_SHIFTED_GRAD_OP]) by (cbn; tauto); do 3 (apply in_or_app; right); apply in_or_app; left; now left
          | rewrite (AS [SCS_FACE_GRAD_OP; SCS_SHIFTED_FACE_GRAD_OP; FEM_FACE_GRAD_OP; FEM_FACE_DET_J]) by (cbn; tauto); do 4 (apply in_or_app; right); apply in_or_app; left; now left
          | rewrite (AS [FEM_GRAD_OP; FEM_SHIFTED_GRAD_OP; FEM_DET_J; FEM_NORMAL; FEM_GIJ]) by (cbn; tauto); do 7 (apply in_or_app; right); apply in_or_app; left; now left
          | rewrite (AS [FEM_GRAD_OP; FEM_SHIFTED_GRAD_OP; FEM_DET_J]) by (cbn; tauto); do 8 (apply in_or_app; right); now left ].
Qed.
(** Requests are accepted exactly when the master elements they need have been given. *)
Theorem C106_accepted : forall z s, (exists l, create z s = Some l) <-> (forall r, s r = true -> 0 < needs z r).
Proof.
  intros z s. unfold create. set (b1 := forallb _ reqs). set (b2 := implb (s FEM_GRAD_OP && s FEM_SHIFTED_GRAD_OP) _). set (b3 := implb (asked s _ && _) _).
  assert (F : b1 = true <-> (forall r, s r = true -> 0 < needs z r)).
  { unfold b1. rewrite forallb_forall. split; intros H r.
    - intros R. specialize (H r (all_reqs r)). rewrite R in H. cbn [implb] in H. now apply Nat.ltb_lt.
    - intros _. destruct (s r) eqn:R; [|reflexivity]. cbn [implb andb]. apply Nat.ltb_lt. auto. }
  split.
  - intros (l & H). apply F. destruct b1; [reflexivity|]. discriminate.
  - intros H. assert (B1 : b1 = true) by now apply F. rewrite B1. cbn.
    assert (B2 : b2 = true). { unfold b2. destruct (s FEM_GRAD_OP) eqn:R; [|reflexivity]. destruct (s FEM_SHIFTED_GRAD_OP); [|reflexivity]. cbn [implb andb]. apply Nat.ltb_lt. apply (H FEM_GRAD_OP R). }
    assert (B3 : b3 = true).
    { unfold b3. destruct (asked s [SCS_GRAD_OP; SCS_SHIFTED_GRAD_OP; SCS_GIJ]); [|reflexivity]. cbn [andb].
      destruct (asked s [FEM_GRAD_OP; FEM_SHIFTED_GRAD_OP; FEM_DET_J; FEM_NORMAL; FEM_GIJ]) eqn:A; [|reflexivity]. cbn [implb andb]. apply Nat.ltb_lt. apply asked_in in A. destruct A as (r & I & R).
      apply H in R. cbn in I. intuition (subst; exact R). }
    rewrite B2, B3. cbn. eauto.
Qed.
(** requests whose results share one array *)
Definition rivals (a b : req) : Prop :=
  (a = FEM_GRAD_OP /\ b = FEM_SHIFTED_GRAD_OP) \/ (a = FEM_SHIFTED_GRAD_OP /\ b = FEM_GRAD_OP) \/ (a = SCS_GIJ /\ b = FEM_GIJ) \/ (a = FEM_GIJ /\ b = SCS_GIJ)
  \/ (a = SCS_FACE_GRAD_OP /\ b = FEM_FACE_GRAD_OP) \/ (a = FEM_FACE_GRAD_OP /\ b = SCS_FACE_GRAD_OP).
Lemma holds_gen s v : forall l a, (forall r, In r l -> s r = true -> In v (results r) -> False) ->
  fold_left (fun a r => if s r && existsb (fun w => if vname_dec v w then true else false) (results r) then Some r else a) l a = a.
Proof.
  induction l as [|r l IH]; intros a H; [reflexivity|]. cbn. destruct (s r && existsb (fun w => if vname_dec v w then true else false) (results r))%bool eqn:E.
  - exfalso. apply andb_true_iff in E. destruct E as (R & E). apply existsb_exists in E. destruct E as (w & W & D). destruct (vname_dec v w) as [->|]; [|discriminate]. apply (H r); auto. now left.
  - apply IH. intros q Q. apply H. now right.
Qed.
(** After filling, the results of a request hold that request's data, unless a rival was requested too. *)
Theorem C106_results_uncontested : forall s r v, s r = true -> In v (results r) -> (forall q, s q = true -> ~ rivals r q) -> holds s v = Some r.
Proof.
  intros s r v R I N. unfold holds.
  assert (U : forall q, s q = true -> In v (results q) -> q = r).
  { intros q Q J. destruct r, q; try reflexivity; exfalso; cbn in I, J; try contradiction;
    repeat (match goal with H : _ = v \/ _ |- _ => destruct H as [H|H] | H : False |- _ => contradiction end); subst; try discriminate;
    match goal with H : s ?b = true, H' : s ?a = true |- _ => apply (N b H); unfold rivals; tauto | _ => idtac end. }
  destruct (in_split r reqs (all_reqs r)) as (l1 & l2 & E). rewrite E, fold_left_app. cbn [fold_left]. rewrite R.
  assert (X : existsb (fun w => if vname_dec v w then true else false) (results r) = true) by (apply existsb_exists; exists v; split; [assumption|now destruct (vname_dec v v)]). rewrite X. cbn [andb].
  apply holds_gen. intros q Q S J. specialize (U q S J). subst q.
  assert (ND : NoDup reqs) by (unfold reqs; repeat constructor; cbn; intuition discriminate). rewrite E in ND. apply NoDup_remove_2 in ND. apply ND. apply in_or_app. now right.
Qed.
(** Rival requests should be refused; the checks ask only for a master element that is there, so they are accepted and one kernel reads the other's data. *)
Theorem C106_rivals_refused_refuted : exists z s l, create z s = Some l /\ s FEM_GRAD_OP = true /\ s FEM_SHIFTED_GRAD_OP = true /\ In Dndx_fem (results FEM_GRAD_OP) /\ holds s Dndx_fem = Some FEM_SHIFTED_GRAD_OP.
Proof.
  exists (mkSz 3 4 8 4 12 8 8), (fun r => match r with FEM_GRAD_OP | FEM_SHIFTED_GRAD_OP => true | _ => false end). eexists.
  split; [reflexivity|]. do 2 (split; [reflexivity|]). split; [now left|]. reflexivity.
Qed.
Theorem C106_gij_of_both_refuted : exists z s l, create z s = Some l /\ s SCS_GIJ = true /\ holds s GijUpper = Some FEM_GIJ /\ In (GijUpper, 12 * 3 * 3) l /\ In (GijUpper, 8 * 3 * 3) l.
Proof.
  exists (mkSz 3 4 8 4 12 8 8), (fun r => match r with SCS_GIJ | FEM_GIJ => true | _ => false end). eexists.
  split; [reflexivity|]. do 2 (split; [reflexivity|]). split; cbn; tauto.
Qed.
(** ** fields *)
(** The view of a field has as many entries as were counted, and its rank is the one the gather asks for, if no second size of one was given. *)
Theorem C106_field_view_matches : forall n f, prod (field_view n f) = field_cost n f /\ (f_d2 f <> 1 -> length (field_view n f) = gather_rank f).
Proof.
  intros n f. split; [apply field_fits|]. intros H. unfold field_view, gather_rank. destruct (f_rank f), (f_d2 f) as [|[|k]]; try contradiction; cbn; try reflexivity; destruct (Nat.eqb (f_d1 f) 1); reflexivity.
Qed.
Theorem C106_second_size_one_refuted : exists n f, length (field_view n f) <> gather_rank f.
Proof. exists 8, (mkF 0 Node 3 1). cbn. lia. Qed.
Definition field_ok (l : list finfo) : Prop := NoDup (map f_id l).
Lemma find_id l f g : find (fun g => Nat.eqb (f_id g) (f_id f)) l = Some g -> In g l /\ f_id g = f_id f.
Proof. intros H. apply find_some in H. destruct H as (A & B). now apply Nat.eqb_eq in B. Qed.
(** A field is gathered once however often it is requested, earlier requests are kept, and a request that asks for both sizes gets the field with those sizes. *)
Theorem C106_field_registered : forall c2 f l l', field_ok l -> add_field c2 f l = Some l' ->
  field_ok l' /\ (forall g, In g l -> In g l') /\ exists g, In g l' /\ f_id g = f_id f /\ f_d1 g = f_d1 f /\ (c2 = true -> f_d2 g = f_d2 f).
Proof.
  intros c2 f l l' OK H. unfold add_field in H. destruct (find _ l) as [g|] eqn:F.
  - destruct (Nat.eqb_spec (f_d1 g) (f_d1 f)) as [E|]; [|discriminate]. cbn in H. destruct (implb c2 _) eqn:I; [|discriminate]. injection H as <-.
    split; [assumption|]. split; [auto|]. apply find_id in F. exists g. do 3 (split; [tauto|]). intros ->. cbn in I. now apply Nat.eqb_eq in I.
  - injection H as <-. split; [|split; [intros; apply in_or_app; now left|exists f; split; [apply in_or_app; right; now left|auto]]].
    unfold field_ok. rewrite map_app. cbn. apply NoDup_rev in OK. rewrite <- (rev_involutive (map f_id l ++ [f_id f])). apply NoDup_rev. rewrite rev_app_distr. cbn. constructor; [|assumption].
    rewrite <- in_rev. intro I. apply in_map_iff in I. destruct I as (g & E & I). apply (find_none _ _ F) in I. cbn in I. rewrite E, Nat.eqb_refl in I. discriminate.
Qed.
Theorem C106_conflicting_size_refused : forall c2 f g l, field_ok l -> In g l -> f_id g = f_id f -> f_d1 g <> f_d1 f -> add_field c2 f l = None.
Proof.
  intros c2 f g l OK I E D. unfold add_field. destruct (find _ l) as [h|] eqn:F.
  - apply find_id in F. destruct F as (J & K). assert (h = g).
    { clear - OK I J E K. unfold field_ok in OK. induction l as [|x l IH]; [destruct I|]. cbn in OK. apply NoDup_cons_iff in OK. destruct OK as (N & OK).
      destruct I as [->|I], J as [->|J]; auto; exfalso; apply N; apply in_map_iff; [exists h|exists g]; split; congruence. }
    subst h. destruct (Nat.eqb_spec (f_d1 g) (f_d1 f)); [contradiction|reflexivity].
  - exfalso. apply (find_none _ _ F) in I. cbn in I. rewrite E, Nat.eqb_refl in I. discriminate.
Qed.
(** A request with one size for a field gathered as a tensor should be refused; only the first size is compared, so the kernel is handed a view of the wrong rank. *)
Theorem C106_same_shape_refuted : exists f l l', add_field false f l = Some l' /\ field_ok l /\ forall g, In g l' -> length (field_view 8 g) <> length (field_view 8 f).
Proof. exists (mkF 0 Node 3 0), [mkF 0 Node 3 3]. eexists. split; [reflexivity|]. split; [repeat constructor; intros []|]. intros g [<-|[]]. cbn. lia. Qed.
(** The hypotheses are met: a hexahedron that asks for face areas, volumes, gradients and metric tensors, with velocity and pressure gathered. *)
Theorem C106_case : let z := mkSz 3 0 8 0 12 8 0 in let s := fun r => match r with SCS_AREAV | SCS_GRAD_OP | SCS_GIJ | SCV_VOLUME => true | _ => false end in
  (exists l, create z s = Some l) /\ sum (map snd (views z s)) = 848 /\ budget false z 8 s = 848 /\ budget true z 8 s = 848
  /\ num_scalars false z 8 [mkF 0 Node 3 0; mkF 1 Node 1 0] [s] = 888 /\ (forall q, s q = true -> ~ rivals SCS_GIJ q).
Proof.
  intros z s. split; [eexists; reflexivity|]. do 4 (split; [reflexivity|]). intros q Q R. destruct q; try discriminate; unfold rivals in R; intuition discriminate.
Qed.
