(** C82 continued: what the norms say about the error; shared exact fields; input *)
Require Import String.
Require Import Reals List Bool Arith Lra Lia Permutation.
From Verif Require Import Edge_Model Edge_Proofs Opt_Model Norm_Model Norm_Props.
From Verif Require Sum_Proofs.
Import ListNotations.
Open Scope R_scope.
Open Scope list_scope.

Lemma lsum_nn {A} (F : A -> R) l : (forall a, In a l -> 0 <= F a) -> 0 <= lsum F l.
Proof.
  induction l as [|x l IH]; intros H; [cbn; lra|]. rewrite Sum_Proofs.lsum_cons. assert (0 <= F x) by (apply H; left; reflexivity).
  assert (0 <= lsum F l) by (apply IH; intros; apply H; right; assumption). lra.
Qed.
Lemma lsum_bound {A} (F : A -> R) M l : (forall a, In a l -> F a <= M) -> lsum F l <= INR (List.length l) * M.
Proof.
  induction l as [|x l IH]; intros H; [cbn; lra|]. rewrite Sum_Proofs.lsum_cons. cbn [List.length]. rewrite S_INR.
  assert (F x <= M) by (apply H; left; reflexivity).
  assert (lsum F l <= INR (List.length l) * M) by (apply IH; intros; apply H; right; assumption). lra.
Qed.
Lemma lsum_one {A} (F : A -> R) l a : (forall a, In a l -> 0 <= F a) -> In a l -> F a <= lsum F l.
Proof.
  induction l as [|x l IH]; intros H; [intros []|]. rewrite Sum_Proofs.lsum_cons. intros [->|Ha].
  - assert (0 <= lsum F l) by (apply lsum_nn; intros; apply H; right; assumption). lra.
  - assert (0 <= F x) by (apply H; left; reflexivity). assert (F a <= lsum F l) by (apply IH; [intros; apply H; right; assumption|exact Ha]). lra.
Qed.
Lemma len_pos {A} (l : list A) : l <> [] -> 0 < INR (List.length l).
Proof. intros H. apply lt_0_INR. destruct l; [congruence|cbn; lia]. Qed.
(** (sum e)^2 <= N sum e^2, by the variance being non-negative *)
Lemma mean_square {A} (F : A -> R) l : l <> [] ->
  (lsum F l / INR (List.length l)) * (lsum F l / INR (List.length l)) <= lsum (fun a => F a * F a) l / INR (List.length l).
Proof.
  intros NE. assert (HN := len_pos l NE). set (N := INR (List.length l)) in *. set (m := lsum F l / N).
  assert (V : 0 <= lsum (fun a => (F a - m) * (F a - m)) l) by (apply lsum_nn; intros x Hx; cbv beta; apply Rle_0_sqr).
  assert (E : lsum (fun a => (F a - m) * (F a - m)) l = lsum (fun a => F a * F a) l - 2 * m * lsum F l + N * (m * m)).
  { generalize m. unfold N. clear. intros m. induction l as [|x l IH]; [cbn; lra|]. rewrite !Sum_Proofs.lsum_cons, IH. cbn [List.length]. rewrite S_INR. lra. }
  assert (S1 : lsum F l = N * m) by (unfold m; field; lra).
  apply Rmult_le_reg_l with N; [exact HN|]. replace (N * (lsum (fun a => F a * F a) l / N)) with (lsum (fun a => F a * F a) l) by (field; lra).
  rewrite E, S1 in V. lra.
Qed.

(** 0 <= L1 <= L2 <= Loo <= N L1 in every row *)
Theorem C82_ordering ranks j f i r : all_nodes ranks <> [] -> expected_row ranks j f i r ->
  exists l1 l2, w_1 r = Some l1 /\ w_2 r = Some l2 /\ 0 <= l1 /\ l1 <= l2 /\ l2 <= w_oo r /\ w_oo r <= INR (w_count r) * l1.
Proof.
  intros NE (_ & _ & EC & (UB & b & Hb & EM) & E1 & E2). exists (mean (err f i) (all_nodes ranks)), (rms (err f i) (all_nodes ranks)).
  split; [exact E1|]. split; [exact E2|]. rewrite EC. unfold mean, rms. set (l := all_nodes ranks) in *. assert (HN := len_pos l NE).
  assert (P : forall a, In a l -> 0 <= err f i a) by (intros; apply err_nonneg).
  assert (M1 : 0 <= lsum (err f i) l / INR (List.length l)).
  { apply Rmult_le_pos; [apply lsum_nn, P|left; apply Rinv_0_lt_compat, HN]. }
  split; [exact M1|]. split.
  - rewrite <- (sqrt_square (lsum (err f i) l / INR (List.length l)) M1) at 1. apply sqrt_le_1_alt. apply (mean_square (err f i) l NE).
  - assert (HM : 0 <= w_oo r) by (rewrite <- EM; apply err_nonneg). split.
    + rewrite <- (sqrt_square (w_oo r) HM). apply sqrt_le_1_alt. apply Rmult_le_reg_r with (INR (List.length l)); [exact HN|].
      unfold Rdiv. rewrite Rmult_assoc, Rinv_l, Rmult_1_r by lra. rewrite Rmult_comm. apply lsum_bound. intros a Ha.
      assert (A := P a Ha). assert (B := UB a Ha). nra.
    + replace (INR (List.length l) * (lsum (err f i) l / INR (List.length l))) with (lsum (err f i) l) by (field; lra).
      rewrite <- EM. apply lsum_one; assumption.
Qed.
(** Any one of the three norms is zero exactly when the solution equals the analytic field at every node. *)
Theorem C82_exact ranks j f i r : all_nodes ranks <> [] -> expected_row ranks j f i r ->
  (w_oo r = 0 <-> forall a, In a (all_nodes ranks) -> f_dof f a i = f_exact f a i)
  /\ (w_1 r = Some 0 <-> forall a, In a (all_nodes ranks) -> f_dof f a i = f_exact f a i)
  /\ (w_2 r = Some 0 <-> forall a, In a (all_nodes ranks) -> f_dof f a i = f_exact f a i).
Proof.
  intros NE H. destruct (C82_ordering ranks j f i r NE H) as (l1 & l2 & E1 & E2 & A & B & C & D). destruct H as (_ & _ & _ & (UB & b & Hb & EM) & _ & _).
  assert (K : w_oo r = 0 <-> forall a, In a (all_nodes ranks) -> f_dof f a i = f_exact f a i).
  { split.
    - intros Z a Ha. specialize (UB a Ha). unfold err in UB. assert (P := Rabs_pos (f_dof f a i - f_exact f a i)).
      destruct (Req_dec (f_dof f a i - f_exact f a i) 0) as [E|E]; [lra|]. apply Rabs_pos_lt in E. lra.
    - intros Z. rewrite <- EM. unfold err. rewrite (Z b Hb). rewrite Rminus_diag_eq by reflexivity. apply Rabs_R0. }
  split; [exact K|]. rewrite E1, E2. split; (etransitivity; [|exact K]); split.
  - intros Q. injection Q as Q. assert (0 <= w_oo r) by lra. rewrite Q in D. lra.
  - intros Q. f_equal. lra.
  - intros Q. injection Q as Q. assert (l1 = 0) as Z by lra. rewrite Z in D. lra.
  - intros Q. f_equal. lra.
Qed.
(** A tolerance on the reported maximum is a tolerance on every node. *)
Theorem C82_pointwise ranks j f i r tol : expected_row ranks j f i r -> w_oo r <= tol ->
  forall a, In a (all_nodes ranks) -> Rabs (f_dof f a i - f_exact f a i) <= tol.
Proof. intros (_ & _ & _ & (UB & _) & _) T a Ha. specialize (UB a Ha). unfold err in UB. lra. Qed.
(** Scaling the error scales the norms. *)
Theorem C82_scaling ranks c f g i : (forall a, f_dof g a i - f_exact g a i = c * (f_dof f a i - f_exact f a i)) -> all_nodes ranks <> [] ->
  mean (err g i) (all_nodes ranks) = Rabs c * mean (err f i) (all_nodes ranks)
  /\ rms (err g i) (all_nodes ranks) = Rabs c * rms (err f i) (all_nodes ranks)
  /\ forall M, is_max (err f i) (all_nodes ranks) M -> is_max (err g i) (all_nodes ranks) (Rabs c * M).
Proof.
  intros H NE. assert (HN := len_pos _ NE). assert (E : forall a, err g i a = Rabs c * err f i a) by (intros a; unfold err; rewrite H; apply Rabs_mult).
  assert (Pc := Rabs_pos c). split; [|split].
  - unfold mean. rewrite (lsum_ext _ (fun a => Rabs c * err f i a)) by (intros; apply E).
    assert (Q : forall l, lsum (fun a => Rabs c * err f i a) l = Rabs c * lsum (err f i) l).
    { induction l as [|x l IH]; [cbn; lra|]. rewrite !Sum_Proofs.lsum_cons, IH. lra. }
    rewrite Q. unfold Rdiv. lra.
  - unfold rms. rewrite (lsum_ext _ (fun a => (Rabs c * Rabs c) * (err f i a * err f i a))) by (intros; rewrite E; ring).
    assert (Q : forall l, lsum (fun a => Rabs c * Rabs c * (err f i a * err f i a)) l = Rabs c * Rabs c * lsum (fun a => err f i a * err f i a) l).
    { induction l as [|x l IH]; [cbn; lra|]. rewrite !Sum_Proofs.lsum_cons, IH. lra. }
    rewrite Q. unfold Rdiv. rewrite Rmult_assoc, sqrt_mult_alt by nra. rewrite sqrt_square by exact Pc. reflexivity.
  - intros M (UB & b & Hb & EM). split.
    + intros a Ha. rewrite E. apply Rmult_le_compat_l; [exact Pc|apply UB, Ha].
    + exists b. split; [exact Hb|]. rewrite E, EM. reflexivity.
Qed.
(** No active node: the reported maximum is the starting value and the other two are 0/0. *)
Theorem C82_no_nodes freq step f : (0 < f_size f)%nat -> (0 < freq)%nat -> (step mod freq = 0)%nat ->
  exists r rs, execute freq step [f] [[]] = Some (r :: rs) /\ w_count r = O /\ w_oo r = - 10 ^ 16 /\ w_1 r = None /\ w_2 r = None.
Proof.
  intros Hs Hf Hm. unfold execute. destruct (Nat.eqb_spec freq 0); [lia|]. rewrite Hm. cbn [Nat.eqb]. destruct (f_size f) as [|s] eqn:E; [lia|].
  unfold rows, all_norms, rank_norms. cbn [fold_left map List.length seq combine fst snd app total_size]. rewrite E. cbn [seq map].
  eexists; eexists. split; [reflexivity|]. cbn [w_count w_oo w_1 w_2 n_count n_oo n_12 map fold_left init_norms]. repeat split.
Qed.

(** --- the exact fields --- *)
Lemma parts_fold (p : string * function) parts : forall ex nm a i,
  fold_left (fun ex (part : mesh_part) => fun nm a i => if String.eqb nm (fst p) && existsb (Nat.eqb a) part then snd p a i else ex nm a i) parts ex nm a i
  = if String.eqb nm (fst p) && existsb (fun part => existsb (Nat.eqb a) part) parts then snd p a i else ex nm a i.
Proof.
  induction parts as [|q parts IH]; intros ex nm a i; cbn [fold_left existsb]; [rewrite andb_false_r; reflexivity|]. rewrite IH.
  destruct (String.eqb nm (fst p)); cbn [andb]; [|reflexivity]. destruct (existsb (Nat.eqb a) q), (existsb (fun part => existsb (Nat.eqb a) part) parts); reflexivity.
Qed.
Lemma in_parts parts a : (exists part, In part parts /\ In a part) -> existsb (fun part => existsb (Nat.eqb a) part) parts = true.
Proof. intros (q & Hq & Ha). apply existsb_exists. exists q. split; [exact Hq|]. apply existsb_exists. exists a. split; [exact Ha|apply Nat.eqb_refl]. Qed.
(** With distinct dof names every dof is compared with its own function, at every node of every target part. *)
Theorem C82_exact_field pairs parts ex nm fn a i : NoDup (map fst pairs) -> In (nm, fn) pairs ->
  (exists part, In part parts /\ In a part) -> populate pairs parts ex nm a i = fn a i.
Proof.
  intros ND Hin Ha. apply in_parts in Ha. unfold populate. revert ex. induction pairs as [|q pairs IH]; [destruct Hin|]. intros ex. cbn [fold_left].
  inversion ND as [|? ? NI ND']; subst. destruct Hin as [->|Hin]; [|apply IH; assumption].
  assert (K : forall prs ex', ~ In nm (map fst prs) -> fold_left (fun ex (p : string * function) =>
    fold_left (fun ex (part : mesh_part) => fun nm a i => if String.eqb nm (fst p) && existsb (Nat.eqb a) part then snd p a i else ex nm a i) parts ex) prs ex' nm a i = ex' nm a i).
  { clear. induction prs as [|p prs IH]; intros ex' H; [reflexivity|]. cbn [fold_left]. rewrite IH by (intros K; apply H; right; exact K).
    rewrite parts_fold. destruct (String.eqb_spec nm (fst p)) as [E|E]; [|reflexivity]. exfalso. apply H. left. symmetry. exact E. }
  rewrite K by exact NI. rewrite parts_fold. cbn [fst snd]. rewrite String.eqb_refl, Ha. reflexivity.
Qed.
(** Listing a dof twice with two functions compares both rows with the last function. *)
Theorem C82_dof_listed_twice_refuted : exists (fn1 fn2 : function) ex,
  fn1 0%nat 0%nat <> fn2 0%nat 0%nat /\ populate [("velocity", fn1); ("velocity", fn2)]%string [[0%nat]] ex "velocity" 0%nat 0%nat = fn2 0%nat 0%nat.
Proof. exists (fun _ _ => 0), (fun _ _ => 1), (fun _ _ _ => 2). split; [lra|reflexivity]. Qed.

(** --- input --- *)
Lemma all_some_spec {A B} (f : A -> option B) l r : all_some f l = Some r <-> Forall2 (fun x y => f x = Some y) l r.
Proof.
  revert r. induction l as [|x l IH]; intros r; cbn [all_some].
  - split; [intros E; injection E as <-; constructor|intros H; inversion H; reflexivity].
  - split.
    + destruct (f x) eqn:E1; [|discriminate]. destruct (all_some f l) eqn:E2; [|discriminate]. intros E; injection E as <-. constructor; [exact E1|].
      apply IH. reflexivity.
    + intros H. inversion H as [|? y ? r' H1 H2]; subst. rewrite H1. apply IH in H2. rewrite H2. reflexivity.
Qed.
(** what a successfully loaded block contains: targets and pairs exactly as listed, in order; "precision" wins over "percision" *)
Theorem C82_load node y s : yget "solution_norm" node = Some y -> load_norm node = Some s ->
  (exists v, yget "target_name" y = Some v /\
     ((exists t, v = YScalar t /\ z_targets s = [t]) \/ (exists l, v = YSeq l /\ l = map YScalar (z_targets s))))
  /\ (forall l, yget "dof_user_function_pair" y = Some (YSeq l) -> l = map (fun p => YSeq [YScalar (fst p); YScalar (snd p)]) (z_pairs s))
  /\ (forall v, yget "precision" y = Some (YScalar v) -> z_prec s = v)
  /\ (yget "precision" y = None -> forall v, yget "percision" y = Some (YScalar v) -> z_prec s = v)
  /\ (forall v, yget "output_frequency" y = Some (YScalar v) -> z_freq s = v)
  /\ (yget "output_frequency" y = None -> z_freq s = "100"%string)
  /\ (forall v, yget "file_name" y = Some (YScalar v) -> z_file s = v).
Proof.
  intros Ey. unfold load_norm. rewrite Ey. unfold get_scalar, read_targets, read_pairs. intros H.
  assert (AS : forall l r, all_some as_string l = Some r -> l = map YScalar r).
  { intros l r E. apply all_some_spec in E. induction E as [|x t l r E1 E2 IH]; [reflexivity|]. cbn. f_equal; [|exact IH].
    destruct x; cbn in E1; try discriminate E1. injection E1 as ->. reflexivity. }
  assert (AP : forall l r, all_some read_pair l = Some r -> l = map (fun p => YSeq [YScalar (fst p); YScalar (snd p)]) r).
  { intros l r E. apply all_some_spec in E. induction E as [|x t l r E1 E2 IH]; [reflexivity|]. cbn [map]. f_equal; [|exact IH].
    unfold read_pair in E1. destruct x as [| |l'|]; try discriminate E1. destruct l' as [|a [|b [|c l']]]; try discriminate E1.
    destruct a; cbn in E1; try discriminate E1. destruct b; cbn in E1; try discriminate E1. injection E1 as <-. reflexivity. }
  repeat match type of H with
  | context[match ?o with Some _ => _ | None => _ end] => destruct o as [?|] eqn:?; try discriminate H
  | context[match ?o with YNull => _ | _ => _ end] => destruct o eqn:?; try discriminate H
  end.
  cbn [z_prec z_freq z_file defaults] in *.
  injection H as <-; cbn [z_targets z_pairs z_prec z_freq z_file].
  split; [|split; [|split; [|split; [|split; [|split]]]]].
  - destruct (yget "target_name" y) as [[|v|v|v]|]; try discriminate.
    + eexists; split; [reflexivity|]. left. exists v. split; [reflexivity|congruence].
    + eexists; split; [reflexivity|]. right. exists v. split; [reflexivity|]. apply AS. assumption.
  - intros l1 E1. rewrite E1 in *. apply AP. assumption.
  - intros v E1. rewrite E1 in *. congruence.
  - intros E0 v E1. rewrite E0, E1 in *. congruence.
  - intros v E1. rewrite E1 in *. congruence.
  - intros E1. rewrite E1 in *. congruence.
  - intros v E1. rewrite E1 in *. congruence.
Qed.
Theorem C82_missing_target node y : yget "solution_norm" node = Some y -> yget "target_name" y = None -> load_norm node = None.
Proof.
  intros Ey Et. unfold load_norm. rewrite Ey. unfold read_targets. rewrite Et.
  repeat match goal with |- context[match ?o with Some _ => _ | None => _ end] => destruct o end; reflexivity.
Qed.
(** setup refuses unknown parts, unknown dofs and unknown functions *)
Theorem C82_setup parts fields s : setup_ok parts fields s = true -> z_targets s <> [] ->
  (forall t, In t (z_targets s) -> In t parts)
  /\ (forall d fn, In (d, fn) (z_pairs s) -> In d fields /\ In fn known_functions).
Proof.
  intros H NE. unfold setup_ok in H. apply andb_prop in H. destruct H as (H1 & H2). rewrite forallb_forall in H1, H2.
  assert (K : forall l x, existsb (String.eqb x) l = true -> In x l).
  { intros l x Hx. apply existsb_exists in Hx. destruct Hx as (y & Hy & E). apply String.eqb_eq in E. subst. exact Hy. }
  split.
  - intros t Ht. apply K, H1, Ht.
  - intros d fn Hp. specialize (H2 _ Hp). cbn [fst snd] in H2. apply andb_prop in H2. destruct H2 as (A & B). split; [apply K, A|].
    destruct (z_targets s) as [|t ts]; [congruence|]. cbn [List.length Nat.eqb orb] in B. apply K, B.
Qed.

(** --- example: two fields (vector and scalar), three nodes, two ranks --- *)
Definition ex_u : fpair := mkF 2 2 (fun a i => INR a + INR i) (fun a _ => INR a).
Definition ex_T : fpair := mkF 1 1 (fun a _ => if Nat.eqb a 1 then 3 else 0) (fun _ _ => 0).
Lemma ex_ok : sizes_ok [ex_u; ex_T] /\ all_nodes [[[0%nat; 1%nat]]; [[2%nat]]] <> [].
Proof. split; [intros f [<-|[<-|[]]]; reflexivity|discriminate]. Qed.
Example C82_example : exists rs r, execute 5 10 [ex_u; ex_T] [[[0%nat; 1%nat]]; [[2%nat]]] = Some rs
  /\ map (fun r => (w_field r, w_comp r)) rs = [(0, 0); (0, 1); (1, 0)]%nat
  /\ In r rs /\ w_field r = 1%nat /\ w_oo r = 3 /\ w_1 r = Some 1 /\ w_count r = 3%nat.
Proof.
  destruct ex_ok as (OK & NE). destruct (C82_norms 5 10 _ _ OK NE ltac:(lia) eq_refl) as (rs & E & Em & Hr). exists rs.
  assert (Ex : exists r, In r rs /\ (w_field r, w_comp r) = (1, 0)%nat).
  { assert (In (1, 0)%nat (map (fun r => (w_field r, w_comp r)) rs)) as Q by (rewrite Em; cbn; auto). apply in_map_iff in Q.
    destruct Q as (r & A & B). exists r. auto. }
  destruct Ex as (r & Hin & Er). exists r. split; [exact E|]. split; [exact Em|]. split; [exact Hin|]. injection Er as Ef Ec.
  destruct (Hr r Hin) as (f & Ef' & _ & (_ & _ & EC & (UB & b & Hb & EM) & E1 & _)). rewrite Ef in Ef'. cbn in Ef'. injection Ef' as <-.
  rewrite Ec in *. assert (A3 : Rabs 3 = 3) by (apply Rabs_pos_eq; lra).
  assert (V : forall a, err ex_T 0 a = if Nat.eqb a 1 then 3 else 0).
  { intros a. unfold err. cbn [f_dof f_exact ex_T]. rewrite Rminus_0_r. destruct (Nat.eqb a 1); [exact A3|apply Rabs_R0]. }
  repeat split; [exact Ef| | |rewrite EC; reflexivity].
  - apply Rle_antisym; [rewrite <- EM, V; destruct (Nat.eqb b 1); lra|]. specialize (UB 1%nat). rewrite V in UB. apply UB. cbn. auto.
  - rewrite E1. f_equal. unfold mean, lsum. cbn [all_nodes concat app map fold_right List.length]. rewrite !V. cbn. lra.
Qed.
