(** C83 continued: ranks, the file over a history of steps and restarts, sampled values *)
Require Import String.
Require Import Reals List Bool Arith Lra Lia Permutation.
From Verif Require Import Edge_Model Opt_Model Probe_Model Probe_Props.
Import ListNotations.
Open Scope R_scope.
Open Scope list_scope.

(** --- distribution over ranks --- *)
Lemma nth_combine_seq {A} (l : list A) (F : nat -> nat) k x : nth_error l k = Some x ->
  nth_error (combine l (map F (seq 0 (List.length l)))) k = Some (x, F k).
Proof.
  intros H. enough (G : forall s, nth_error (combine l (map F (seq s (List.length l)))) k = Some (x, F (s + k)%nat)) by apply G.
  revert k H. induction l as [|y l IH]; intros [|k] H s; cbn in *; try discriminate.
  - injection H as ->. rewrite Nat.add_0_r. reflexivity.
  - rewrite (IH k H (S s)). replace (S s + k)%nat with (s + S k)%nat by lia. reflexivity.
Qed.
(** Probes are numbered lines first, then planes, then rings; probe k lives on rank k mod P, so on exactly one of the ranks; that rank
    holds all its points and no other rank holds any. *)
Theorem C83_one_rank P lines planes rings : (0 < P)%nat -> (lines ++ planes ++ rings) <> [] ->
  exists l, load_probes P lines planes rings = Some l /\ map fst l = lines ++ planes ++ rings /\
  forall k p r, nth_error l k = Some (p, r) -> r = (k mod P)%nat /\ (r < P)%nat /\
    forall rank, nodes_on_rank (p_shape p) r rank = if Nat.eqb rank r then total_points (p_shape p) else O.
Proof.
  intros HP NE. unfold load_probes. set (ps := lines ++ planes ++ rings) in *. unfold div_proc_probe.
  destruct (List.length ps) as [|m] eqn:EL; [apply length_zero_iff_nil in EL; congruence|]. eexists. split; [reflexivity|]. rewrite <- EL.
  assert (M : Nat.max (P / List.length ps) P = P).
  { apply Nat.max_r. apply Nat.div_le_upper_bound; [lia|]. rewrite EL. nia. }
  rewrite M. split.
  - assert (G : forall (l : list probe) (l' : list nat), List.length l = List.length l' -> map fst (combine l l') = l).
    { clear. induction l as [|x l IH]; intros [|y l'] H; cbn in *; try discriminate; [reflexivity|]. f_equal. apply IH. lia. }
    apply G. rewrite map_length, seq_length. reflexivity.
  - intros k p r H. assert (Hk : (k < List.length ps)%nat).
    { assert (nth_error (combine ps (map (candidate_id P) (seq 0 (List.length ps)))) k <> None) as N by congruence.
      apply nth_error_Some in N. rewrite combine_length, map_length, seq_length in N. lia. }
    destruct (nth_error ps k) as [x|] eqn:Ex; [|apply nth_error_None in Ex; lia].
    rewrite (nth_combine_seq ps (candidate_id P) k x Ex) in H. injection H as <- <-. unfold candidate_id.
    destruct (Nat.ltb_spec 0 P); [|lia]. split; [reflexivity|]. split; [apply Nat.mod_upper_bound; lia|].
    intros rank. unfold nodes_on_rank. rewrite Nat.eqb_sym. reflexivity.
Qed.
(** a specification without probes: division by zero *)
Theorem C83_no_probes P : load_probes P [] [] [] = None.
Proof. reflexivity. Qed.

(** --- the file over a history --- *)
(** one executed step: its number, time and the values sampled then *)
Record hist := mkH { h_step : nat; h_time : R; h_val : nat -> string -> nat -> R }.
Definition row_of (nDim : nat) (fields : list (string * nat)) (x : coords) (h : hist) (n : nat) : line :=
  Row (h_time h) n (map (x n) (seq 0 nDim)) (map (fun c => h_val h n (fst c) (snd c)) (columns fields)).
Definition output_step (freq : nat) (h : hist) : bool := Nat.eqb (h_step h mod freq) 0.
Fixpoint run_history (nDim freq : nat) fields x on_rank size (hs : list hist) (file : option (list line)) : option (option (list line)) :=
  match hs with
  | [] => Some file
  | h :: r => match execute nDim freq (h_step h) fields x (h_val h) on_rank size (h_time h) file with
      | Some f => run_history nDim freq fields x on_rank size r f | None => None end end.
(** what a file that had the lines [old] gains *)
Definition appended (nDim freq : nat) fields x size (hs : list hist) : list line :=
  flat_map (fun h => map (row_of nDim fields x h) (seq 0 size)) (filter (output_step freq) hs).
(** Whatever the sequence of steps: an existing file keeps all it had and gains, for every output step in order, one row per point in
    order; a missing file is created at the first output step with the header as its first line; no rows at other steps. *)
Theorem C83_file nDim freq fields x size hs file : (0 < freq)%nat ->
  run_history nDim freq fields x true size hs file =
  Some (match file with
        | Some old => Some (old ++ appended nDim freq fields x size hs)
        | None => if existsb (output_step freq) hs then Some (Banner (columns fields) :: appended nDim freq fields x size hs) else None end).
Proof.
  intros Hf. revert file. induction hs as [|h hs IH]; intros file; cbn [run_history].
  - destruct file; cbn; [rewrite app_nil_r|]; reflexivity.
  - unfold execute. destruct freq as [|fr]; [lia|]. set (freq := S fr) in *. fold (output_step freq h). cbn [existsb filter]. unfold appended. cbn [filter].
    destruct (output_step freq h) eqn:E.
    + unfold write_probe. rewrite IH. cbn [flat_map orb]. destruct file as [old|].
      * rewrite <- app_assoc. reflexivity.
      * reflexivity.
    + rewrite IH. cbn [orb]. reflexivity.
Qed.
(** ranks that do not hold the probe write nothing *)
Theorem C83_other_ranks nDim freq fields x size hs file : (0 < freq)%nat -> run_history nDim freq fields x false size hs file = Some file.
Proof.
  intros Hf. revert file. induction hs as [|h hs IH]; intros file; cbn [run_history]; [reflexivity|]. unfold execute. destruct freq as [|fr]; [lia|].
  destruct (Nat.eqb _ _); apply IH.
Qed.
(** stopping and restarting (same points) gives the same file as running on *)
Corollary C83_restart_appends nDim freq fields x size hs1 hs2 file f1 : (0 < freq)%nat ->
  run_history nDim freq fields x true size hs1 file = Some f1 ->
  run_history nDim freq fields x true size hs2 f1 = run_history nDim freq fields x true size (hs1 ++ hs2) file.
Proof.
  intros Hf E. revert file E. induction hs1 as [|h hs IH]; intros file E; cbn [run_history app] in *.
  - injection E as ->. reflexivity.
  - destruct (execute nDim freq (h_step h) fields x (h_val h) true size (h_time h) file) as [f|]; [|discriminate E]. apply IH, E.
Qed.
(** every row has one entry per column of the header *)
Theorem C83_columns nDim fields x h n : match row_of nDim fields x h n with
  | Row t m xs vals => t = h_time h /\ m = n /\ List.length xs = nDim /\ List.length vals = List.length (columns fields)
      /\ List.length (columns fields) = fold_right (fun f a => (snd f + a)%nat) O fields
      /\ forall k nm j, nth_error (columns fields) k = Some (nm, j) -> nth_error vals k = Some (h_val h n nm j)
  | Banner _ => False end.
Proof.
  unfold row_of. repeat split.
  - rewrite map_length, seq_length. reflexivity.
  - rewrite map_length. reflexivity.
  - unfold columns. induction fields as [|f l IH]; [reflexivity|]. cbn [flat_map fold_right]. rewrite app_length, map_length, seq_length, IH. reflexivity.
  - intros k nm j H. rewrite nth_error_map, H. reflexivity.
Qed.

(** --- restart with the nodes found in the mesh --- *)
(** If one rank owns all the points, it refills the coordinates it had: nothing moves. *)
Theorem C83_restart_same nDim s c c' n : (n < total_points s)%nat -> (match s with Ring k _ _ _ _ _ => 0 < k | _ => True end)%nat ->
  fill nDim s (total_points s) c n = fill nDim s (total_points s) c' n.
Proof.
  intros Hn Hr. destruct s as [m tip tail|n1 n2 tail t1 t2|m nl tip tail nm o]; cbn [total_points] in *; unfold fill.
  - unfold fill_line. cbv zeta. rewrite !(fold_set_in (fun k i => tail i + INR k * ((tip i - tail i) / INR (Nat.max 1 (m - 1)))) m _ n Hn). reflexivity.
  - unfold fill_plane. cbv zeta.
    rewrite !(fold_set_in (fun k i => tail i + INR (k mod n1) * ((t1 i - tail i) / INR (Nat.max 1 (n1 - 1))) + INR (k / n1) * ((t2 i - tail i) / INR (Nat.max 2 (n2 - 1)))) (n1 * n2) _ n Hn). reflexivity.
  - rewrite !fill_ring_steps, !steps_value by (first [assumption|lia]). reflexivity.
Qed.
(** If the points of a probe are spread over two ranks (a restart on another decomposition), each rank numbers its own points from zero:
    the second half of the line is put on top of the first. *)
Theorem C83_restart_redistributed_refuted : exists tip tail c, exists i,
  (* the line has four points; rank 0 owns the first two, rank 1 the last two; both ranks consider the probe theirs *)
  restart_on_rank 2 = true
  /\ fill 3 (Line 4 tip tail) 4 c 2%nat i = 2 /\ fill 3 (Line 4 tip tail) 4 c 3%nat i = 3
  /\ fill 3 (Line 4 tip tail) 2 c 0%nat i = 0 /\ fill 3 (Line 4 tip tail) 2 c 1%nat i = 1.
Proof.
  exists (fun _ => 3), (fun _ => 0), (fun _ _ => 0), 0%nat. split; [reflexivity|]. unfold fill, fill_line. cbn. repeat split; lra.
Qed.
(** If the number of points in the input differs from the nodes found, the old points are spaced as the new input says: the line
    overshoots its tip. *)
Theorem C83_restart_count_changed_refuted : exists tip tail c, exists i,
  tail i = 0 /\ tip i = 1 /\ fill 3 (Line 3 tip tail) 5 c 4%nat i = 2.
Proof. exists (fun _ => 1), (fun _ => 0), (fun _ _ => 0), 0%nat. repeat split. unfold fill, fill_line. cbn. lra. Qed.

(** --- example: two lines, a plane and a ring on three ranks --- *)
Definition ex_line : probe := mkP "wake"%string (Line 3 (fun _ => 1) (fun _ => 0)).
Definition ex_ring : probe := mkP "ring"%string (Ring 4 2 (fun i => if Nat.eqb i 0 then 2 else 0) (fun i => if Nat.eqb i 0 then 1 else 0) (fun i => if Nat.eqb i 2 then 1 else 0) (fun _ => 0)).
Example C83_example_ranks : exists l, load_probes 3 [ex_line; ex_line] [] [ex_ring; ex_ring] = Some l /\ map snd l = [0; 1; 2; 0]%nat.
Proof. eexists. split; [reflexivity|]. reflexivity. Qed.
Example C83_example_ring : forall c, fill 3 (p_shape ex_ring) 8 c 5%nat 1%nat = 2 /\ fill 3 (p_shape ex_ring) 8 c 5%nat 0%nat = 0.
Proof.
  intros c. assert (N4 : 1 * (2 * PI / INR 4) = PI / 2) by (cbn; field).
  split.
  - refine (eq_trans (C83_ring 4 2 _ _ _ _ c 1 1 1 _ _ _) _); try lia. unfold turned, dot3, cross3. cbn [INR Nat.max Nat.sub Nat.eqb]. 
    replace (1 * (2 * PI / (1 + 1 + 1 + 1))) with (PI / 2) by field. rewrite cos_PI2, sin_PI2. field.
  - refine (eq_trans (C83_ring 4 2 _ _ _ _ c 1 1 0 _ _ _) _); try lia. unfold turned, dot3, cross3. cbn [INR Nat.max Nat.sub Nat.eqb].
    replace (1 * (2 * PI / (1 + 1 + 1 + 1))) with (PI / 2) by field. rewrite cos_PI2, sin_PI2. field.
Qed.
Example C83_example_file : exists l, run_history 2 2 [("velocity_probe", 2%nat)]%string (fun _ _ => 0) true 1
    [mkH 1 0.1 (fun _ _ _ => 1); mkH 2 0.2 (fun _ _ _ => 2); mkH 3 0.3 (fun _ _ _ => 3); mkH 4 0.4 (fun _ _ j => INR j)] None = Some (Some l)
  /\ List.length l = 3%nat /\ nth_error l 2 = Some (Row 0.4 0 [0; 0] [INR 0; INR 1]).
Proof. rewrite C83_file by lia. eexists. split; [reflexivity|]. split; reflexivity. Qed.
