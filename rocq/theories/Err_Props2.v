(** C93: the Courant and Reynolds numbers that drive the time step. *)
Require Import Reals List Bool Arith Lia Lra Psatz Permutation.
From Verif Require Import Edge_Model Edge_Proofs Elem_Model Fem_Model Err_Model Time_Model Tensor_Model.
Import ListNotations.
Open Scope R_scope.

(** *** specification *)
(** number of edge lengths the mean velocity (plus, in a gas, the sound) crosses in a step, along the line between two nodes *)
Definition edge_vec (d : nat) (D : cdata) (il ir j : nat) : R := cd_x D ir j - cd_x D il j.
Definition edge_sq (d : nat) (D : cdata) (il ir : nat) : R := sumn d (fun j => (edge_vec d D il ir j)^2).
Definition mid_vel (D : cdata) (il ir j : nat) : R := (cd_u D il j + cd_u D ir j)/2.
(** points of an element, of a mesh distributed over ranks *)
Definition point_of (e : me * cdata) (ip : nat) : Prop := (ip < nscs (fst e))%nat.
Definition has_point (els : list (me * cdata)) : Prop := exists e ip, In e els /\ point_of e ip.
Definition pcr (gas : bool) (dt : R) (e : me * cdata) (ip : nat) : R * R := ip_cr gas dt (ndim (fst e)) (snd e) (lrL (fst e) ip) (lrR (fst e) ip).

(** *** maxima *)
Lemma fold_pair_max {A} (f : A -> R * R) l st :
  fold_left (fun st a => (Rmax (fst st) (fst (f a)), Rmax (snd st) (snd (f a)))) l st
  = (fold_left Rmax (map (fun a => fst (f a)) l) (fst st), fold_left Rmax (map (fun a => snd (f a)) l) (snd st)).
Proof. revert st. induction l as [|a l IH]; intros [a0 b0]; [reflexivity|]. cbn [fold_left map]. rewrite IH. reflexivity. Qed.
Lemma fold_max_le l b : b <= fold_left Rmax l b /\ (forall x, In x l -> x <= fold_left Rmax l b) /\ (fold_left Rmax l b = b \/ In (fold_left Rmax l b) l).
Proof.
  revert b. induction l as [|a l IH]; intros b; cbn [fold_left]. { split; [lra|]. split; [intros x []|left; reflexivity]. }
  destruct (IH (Rmax b a)) as (A & B & C). pose proof (Rmax_l b a). pose proof (Rmax_r b a). split; [lra|]. split.
  - intros x [->|Hx]; [lra|apply B; exact Hx].
  - destruct C as [C|C]; [|right; right; exact C]. rewrite C. unfold Rmax. destruct (Rle_dec b a); [right; left; reflexivity|left; reflexivity].
Qed.
(** all points of a list of elements, in the order of the loops *)
Definition points (els : list (me * cdata)) : list ((me * cdata) * nat) := flat_map (fun e => map (fun ip => (e, ip)) (seq 0 (nscs (fst e)))) els.
Lemma points_in els e ip : In (e, ip) (points els) <-> In e els /\ point_of e ip.
Proof.
  unfold points, point_of. rewrite in_flat_map. split.
  - intros (e' & He & H). apply in_map_iff in H. destruct H as (k & E & Hk). inversion E; subst. apply in_seq in Hk. split; [exact He|lia].
  - intros [He Hp]. exists e. split; [exact He|]. apply in_map_iff. exists ip. split; [reflexivity|apply in_seq; lia].
Qed.
Lemma rank_cr_points gas dt els : rank_cr gas dt els = fold_left (fun st a => (Rmax (fst st) (fst (pcr gas dt (fst a) (snd a))), Rmax (snd st) (snd (pcr gas dt (fst a) (snd a))))) (points els) (-1, -1).
Proof.
  unfold rank_cr. generalize (-1, -1). induction els as [|e els IH]; intros st; [reflexivity|]. cbn [fold_left]. unfold points. cbn [flat_map]. fold (points els).
  rewrite fold_left_app, IH. f_equal. generalize (seq 0 (nscs (fst e))) as l. intros l. revert st. induction l as [|k l IHl]; intros st; [reflexivity|]. cbn [fold_left map fst snd]. rewrite IHl. reflexivity.
Qed.
Definition cnum (gas : bool) (dt : R) (a : (me * cdata) * nat) : R := fst (pcr gas dt (fst a) (snd a)).
Definition rnum (gas : bool) (dt : R) (a : (me * cdata) * nat) : R := snd (pcr gas dt (fst a) (snd a)).
Lemma rank_cr_val gas dt els : rank_cr gas dt els = (fold_left Rmax (map (cnum gas dt) (points els)) (-1), fold_left Rmax (map (rnum gas dt) (points els)) (-1)).
Proof. rewrite rank_cr_points, (fold_pair_max (fun a => pcr gas dt (fst a) (snd a))). reflexivity. Qed.
Lemma fold_max_app l1 l2 b : fold_left Rmax l2 (fold_left Rmax l1 b) = Rmax (fold_left Rmax l1 b) (fold_left Rmax l2 b).
Proof.
  assert (G : forall l a, b <= a -> fold_left Rmax l a = Rmax a (fold_left Rmax l b)).
  { induction l as [|x l IH]; intros a Ha; cbn [fold_left]; [unfold Rmax; destruct (Rle_dec a b); lra|].
    destruct (fold_max_le l (Rmax a x)) as (A1 & A2 & A3). destruct (fold_max_le l (Rmax b x)) as (B1 & B2 & B3).
    pose proof (Rmax_l a x). pose proof (Rmax_r a x). pose proof (Rmax_l b x). pose proof (Rmax_r b x).
    set (U := fold_left Rmax l (Rmax a x)) in *. set (W := fold_left Rmax l (Rmax b x)) in *.
    assert (C1 : Rmax a x = a \/ Rmax a x = x) by (unfold Rmax; destruct (Rle_dec a x); auto).
    assert (C2 : Rmax b x = b \/ Rmax b x = x) by (unfold Rmax; destruct (Rle_dec b x); auto).
    apply Rle_antisym.
    - destruct A3 as [A3|A3].
      + rewrite A3. destruct C1 as [->| ->]; [apply Rmax_l|]. apply Rle_trans with W; [lra|apply Rmax_r].
      + specialize (B2 _ A3). apply Rle_trans with W; [exact B2|apply Rmax_r].
    - apply Rmax_lub; [lra|]. destruct B3 as [B3|B3]; [rewrite B3; destruct C2 as [->| ->]; lra|apply A2; exact B3]. }
  apply G. exact (proj1 (fold_max_le l1 b)).
Qed.
Lemma realm_cr_val gas dt r rs : realm_cr gas dt (r :: rs)
  = (fold_left Rmax (map (cnum gas dt) (points (concat (r :: rs)))) (-1), fold_left Rmax (map (rnum gas dt) (points (concat (r :: rs)))) (-1)).
Proof.
  unfold realm_cr. cbn [map tl hd]. rewrite rank_cr_val. revert r. induction rs as [|s rs IH]; intros r.
  { cbn [map fold_left concat]. rewrite app_nil_r. reflexivity. }
  cbn [map fold_left]. rewrite rank_cr_val. cbn [fst snd]. rewrite <- !fold_max_app, <- !fold_left_app, <- !map_app.
  assert (P : points r ++ points s = points (r ++ s)) by (unfold points; rewrite flat_map_app; reflexivity). rewrite P, IH.
  cbn [concat]. rewrite app_assoc. reflexivity.
Qed.

(** *** element fields *)
Lemma pcr_courant_nonneg gas dt e ip : 0 <= fst (pcr gas dt e ip).
Proof. apply Rabs_pos. Qed.
Definition physical (d : nat) (D : cdata) (n : nat) : Prop := 0 < cd_rho D n /\ 0 <= cd_mu D n /\ 0 <= cd_c D n.
Lemma tiny : 0 < 1/10^16.
Proof. apply Rdiv_lt_0_compat; [lra|apply pow_lt; lra]. Qed.
Lemma ip_reynolds_nonneg gas dt d D il ir : physical d D il -> physical d D ir -> 0 <= snd (ip_cr gas dt d D il ir).
Proof.
  intros (A1 & A2 & A3) (B1 & B2 & B3). unfold ip_cr. cbn [snd]. pose proof tiny.
  assert (0 <= cd_mu D il / cd_rho D il) by (apply Rmult_le_pos; [assumption|left; apply Rinv_0_lt_compat; assumption]).
  assert (0 <= cd_mu D ir / cd_rho D ir) by (apply Rmult_le_pos; [assumption|left; apply Rinv_0_lt_compat; assumption]).
  apply Rmult_le_pos; [|left; apply Rinv_0_lt_compat; lra]. destruct gas; [|apply Rabs_pos].
  apply Rplus_le_le_0_compat; [apply Rabs_pos|]. apply Rmult_le_pos; [lra|apply sqrt_pos].
Qed.
(** the element's Courant number is the largest of its edges' *)
Theorem C93_element_courant gas dt m D : (0 < nscs m)%nat ->
  (forall ip, (ip < nscs m)%nat -> fst (ip_cr gas dt (ndim m) D (lrL m ip) (lrR m ip)) <= fst (elem_cr gas dt m D))
  /\ exists ip, (ip < nscs m)%nat /\ fst (elem_cr gas dt m D) = fst (ip_cr gas dt (ndim m) D (lrL m ip) (lrR m ip)).
Proof.
  intros Hn. unfold elem_cr. rewrite (fold_pair_max (fun ip => ip_cr gas dt (ndim m) D (lrL m ip) (lrR m ip))). cbn [fst].
  destruct (fold_max_le (map (fun ip => fst (ip_cr gas dt (ndim m) D (lrL m ip) (lrR m ip))) (seq 0 (nscs m))) (-1)) as (A & B & C).
  assert (B' : forall ip, (ip < nscs m)%nat -> fst (ip_cr gas dt (ndim m) D (lrL m ip) (lrR m ip)) <= fold_left Rmax (map (fun ip => fst (ip_cr gas dt (ndim m) D (lrL m ip) (lrR m ip))) (seq 0 (nscs m))) (-1)).
  { intros ip Hip. apply B. apply in_map_iff. exists ip. split; [reflexivity|apply in_seq; lia]. }
  split; [exact B'|]. destruct C as [C|C].
  - exfalso. specialize (B' 0%nat Hn). rewrite C in B'. pose proof (Rabs_pos 0). assert (0 <= fst (ip_cr gas dt (ndim m) D (lrL m 0) (lrR m 0))) by apply Rabs_pos. lra.
  - apply in_map_iff in C. destruct C as (ip & E & Hip). exists ip. apply in_seq in Hip. split; [lia|]. symmetry. exact E.
Qed.
Theorem C93_element_reynolds gas dt m D : (0 < nscs m)%nat -> (forall ip, (ip < nscs m)%nat -> physical (ndim m) D (lrL m ip) /\ physical (ndim m) D (lrR m ip)) ->
  (forall ip, (ip < nscs m)%nat -> snd (ip_cr gas dt (ndim m) D (lrL m ip) (lrR m ip)) <= snd (elem_cr gas dt m D))
  /\ exists ip, (ip < nscs m)%nat /\ snd (elem_cr gas dt m D) = snd (ip_cr gas dt (ndim m) D (lrL m ip) (lrR m ip)).
Proof.
  intros Hn Ph. unfold elem_cr. rewrite (fold_pair_max (fun ip => ip_cr gas dt (ndim m) D (lrL m ip) (lrR m ip))). cbn [snd].
  destruct (fold_max_le (map (fun ip => snd (ip_cr gas dt (ndim m) D (lrL m ip) (lrR m ip))) (seq 0 (nscs m))) (-1)) as (A & B & C).
  assert (B' : forall ip, (ip < nscs m)%nat -> snd (ip_cr gas dt (ndim m) D (lrL m ip) (lrR m ip)) <= fold_left Rmax (map (fun ip => snd (ip_cr gas dt (ndim m) D (lrL m ip) (lrR m ip))) (seq 0 (nscs m))) (-1)).
  { intros ip Hip. apply B. apply in_map_iff. exists ip. split; [reflexivity|apply in_seq; lia]. }
  split; [exact B'|]. destruct C as [C|C].
  - exfalso. specialize (B' 0%nat Hn). rewrite C in B'. destruct (Ph 0%nat Hn). assert (0 <= snd (ip_cr gas dt (ndim m) D (lrL m 0) (lrR m 0))) by (apply ip_reynolds_nonneg; assumption). lra.
  - apply in_map_iff in C. destruct C as (ip & E & Hip). exists ip. apply in_seq in Hip. split; [lia|]. symmetry. exact E.
Qed.

(** *** the realm's number *)
(** largest over all points of all elements of all ranks *)
Theorem C93_global_courant gas dt ranks : has_point (concat ranks) ->
  (forall e ip, In e (concat ranks) -> point_of e ip -> fst (pcr gas dt e ip) <= fst (realm_cr gas dt ranks))
  /\ exists e ip, In e (concat ranks) /\ point_of e ip /\ fst (realm_cr gas dt ranks) = fst (pcr gas dt e ip).
Proof.
  intros (e0 & ip0 & He & Hp). destruct ranks as [|r rs]; [destruct He|]. rewrite realm_cr_val. cbn [fst].
  destruct (fold_max_le (map (cnum gas dt) (points (concat (r :: rs)))) (-1)) as (A & B & C).
  assert (B' : forall e ip, In e (concat (r :: rs)) -> point_of e ip -> fst (pcr gas dt e ip) <= fold_left Rmax (map (cnum gas dt) (points (concat (r :: rs)))) (-1)).
  { intros e ip I P. apply B. apply in_map_iff. exists (e, ip). split; [reflexivity|apply points_in; split; assumption]. }
  split; [exact B'|]. destruct C as [C|C].
  - exfalso. specialize (B' e0 ip0 He Hp). rewrite C in B'. pose proof (pcr_courant_nonneg gas dt e0 ip0). lra.
  - apply in_map_iff in C. destruct C as ((e & ip) & E & I). apply points_in in I. exists e, ip. split; [apply I|]. split; [apply I|]. symmetry. exact E.
Qed.
(** so it does not depend on how the elements are spread over the ranks, nor on their order *)
Theorem C93_courant_partition gas dt ranks ranks' : has_point (concat ranks) -> Permutation (concat ranks) (concat ranks') ->
  fst (realm_cr gas dt ranks) = fst (realm_cr gas dt ranks').
Proof.
  intros H P. assert (H' : has_point (concat ranks')).
  { destruct H as (e & ip & I & Q). exists e, ip. split; [apply (Permutation_in _ P I)|exact Q]. }
  destruct (C93_global_courant gas dt ranks H) as (U & e & ip & I & Q & E). destruct (C93_global_courant gas dt ranks' H') as (U' & e' & ip' & I' & Q' & E').
  apply Rle_antisym.
  - rewrite E. apply U'; [apply (Permutation_in _ P I)|exact Q].
  - rewrite E'. apply U; [apply (Permutation_in _ (Permutation_sym P) I')|exact Q'].
Qed.
Lemma ip_courant_dt gas k dt d D il ir : 0 <= k -> fst (ip_cr gas (k*dt) d D il ir) = k * fst (ip_cr gas dt d D il ir).
Proof.
  intros Hk. unfold ip_cr. cbn [fst]. match goal with |- Rabs (?a * (k*dt) / ?b) = _ => replace (a*(k*dt)/b) with (k*(a*dt/b)) by (unfold Rdiv; ring) end.
  rewrite Rabs_mult, (Rabs_pos_eq k) by exact Hk. reflexivity.
Qed.
(** proportional to the time step *)
Theorem C93_courant_scales gas k dt ranks : 0 <= k -> has_point (concat ranks) -> fst (realm_cr gas (k*dt) ranks) = k * fst (realm_cr gas dt ranks).
Proof.
  intros Hk H. destruct (C93_global_courant gas dt ranks H) as (U & e & ip & I & Q & E). destruct (C93_global_courant gas (k*dt) ranks H) as (U' & e' & ip' & I' & Q' & E').
  unfold pcr in *. apply Rle_antisym.
  - rewrite E', ip_courant_dt by exact Hk. apply Rmult_le_compat_l; [exact Hk|]. apply (U e' ip' I' Q').
  - rewrite E, <- ip_courant_dt by exact Hk. apply (U' e ip I Q).
Qed.
(** the time-step controller works on this number: where the change is not limited, the flow frozen, the new step has the target number *)
Theorem C93_controller_hits_target gas dt ranks target factor : has_point (concat ranks) -> 0 < target ->
  let C := fst (realm_cr gas dt ranks) in 0 < C -> 1/factor <= target/C <= factor ->
  exists dt', compute_adaptive_time_step dt target C factor = Some dt' /\ fst (realm_cr gas dt' ranks) = target.
Proof.
  intros H Ht C HC [F1 F2]. unfold compute_adaptive_time_step, ieee_div. destruct (Req_EM_T C 0) as [Z|_]; [lra|].
  eexists. split; [reflexivity|].
  assert (E : (if Rlt_dec target C then std_max (target/C) (1/factor) else std_min (target/C) factor) = target/C).
  { unfold std_max, std_min. destruct (Rlt_dec target C); match goal with |- context [Rlt_dec ?a ?b] => destruct (Rlt_dec a b) end; lra. }
  rewrite E, Rmult_comm, C93_courant_scales; [fold C; field; lra| |exact H]. apply Rmult_le_pos; [lra|left; apply Rinv_0_lt_compat; exact HC].
Qed.

(** *** one edge *)
Lemma cs_sumn n (a b : nat -> R) : (sumn n (fun j => a j * b j))^2 <= sumn n (fun j => (a j)^2) * sumn n (fun j => (b j)^2).
Proof.
  induction n as [|n IH]; [unfold sumn; cbn [seq fold_left]; lra|]. rewrite !sumn_S.
  assert (PA : 0 <= sumn n (fun j => (a j)^2)) by (apply sumn_nonneg; intros; apply pow2_ge_0).
  assert (PB : 0 <= sumn n (fun j => (b j)^2)) by (apply sumn_nonneg; intros; apply pow2_ge_0).
  set (P := sumn n (fun j => a j * b j)) in *. set (A := sumn n (fun j => (a j)^2)) in *. set (B := sumn n (fun j => (b j)^2)) in *.
  generalize (a n) (b n). intros u v. clearbody P A B. clear a b.
  assert (K : 2*P*u*v <= A*v^2 + B*u^2).
  { assert (X0 : 0 <= A*v^2 + B*u^2) by (apply Rplus_le_le_0_compat; apply Rmult_le_pos; auto using pow2_ge_0).
    assert (SQ : (2*P*u*v)^2 <= (A*v^2 + B*u^2)^2).
    { apply Rle_trans with (4*(A*B)*(u*v)^2).
      - replace ((2*P*u*v)^2) with (4*P^2*(u*v)^2) by ring. apply Rmult_le_compat_r; [apply pow2_ge_0|lra].
      - assert (0 <= (A*v^2 - B*u^2)^2) by apply pow2_ge_0. nra. }
    destruct (Rle_dec (2*P*u*v) (A*v^2 + B*u^2)) as [L|L]; [exact L|]. exfalso. apply Rnot_le_lt in L. nra. }
  nra.
Qed.
(** distance travelled along the edge, in edge lengths *)
Theorem C93_edge_courant dt d D il ir : 0 < edge_sq d D il ir -> 0 <= dt ->
  fst (ip_cr false dt d D il ir) = dt * Rabs (sumn d (fun j => mid_vel D il ir j * edge_vec d D il ir j)) / edge_sq d D il ir
  /\ fst (ip_cr false dt d D il ir) <= dt * sqrt (sumn d (fun j => (mid_vel D il ir j)^2)) / sqrt (edge_sq d D il ir).
Proof.
  intros Hs Hd. assert (E : fst (ip_cr false dt d D il ir) = dt * Rabs (sumn d (fun j => mid_vel D il ir j * edge_vec d D il ir j)) / edge_sq d D il ir).
  { unfold ip_cr. cbn [fst].
    replace (sumn d (fun j => (cd_x D ir j - cd_x D il j) * (cd_x D ir j - cd_x D il j))) with (edge_sq d D il ir) by (apply sumn_ext; intros; unfold edge_vec; ring).
    replace (sumn d (fun j => (cd_x D ir j - cd_x D il j) * ((1/2)*(cd_u D ir j + cd_u D il j)))) with (sumn d (fun j => mid_vel D il ir j * edge_vec d D il ir j))
      by (apply sumn_ext; intros; unfold mid_vel, edge_vec; field).
    rewrite Rabs_pos_eq; [unfold Rdiv; ring|]. apply Rmult_le_pos; [apply Rmult_le_pos; [apply Rabs_pos|exact Hd]|left; apply Rinv_0_lt_compat; exact Hs]. }
  split; [exact E|]. rewrite E. assert (Q : 0 < sqrt (edge_sq d D il ir)) by (apply sqrt_lt_R0; exact Hs).
  assert (CS : Rabs (sumn d (fun j => mid_vel D il ir j * edge_vec d D il ir j)) <= sqrt (sumn d (fun j => (mid_vel D il ir j)^2)) * sqrt (edge_sq d D il ir)).
  { rewrite <- sqrt_mult_alt by (apply sumn_nonneg; intros; apply pow2_ge_0). rewrite <- sqrt_Rsqr_abs. apply sqrt_le_1_alt. unfold Rsqr.
    pose proof (cs_sumn d (fun j => mid_vel D il ir j) (edge_vec d D il ir)) as C. cbv beta in C. unfold edge_sq. lra. }
  rewrite <- (sqrt_sqrt (edge_sq d D il ir)) at 1 by lra. unfold Rdiv. rewrite Rinv_mult.
  replace (dt * sqrt (sumn d (fun j => mid_vel D il ir j ^ 2)) * / sqrt (edge_sq d D il ir))
     with (dt * (sqrt (sumn d (fun j => mid_vel D il ir j ^ 2)) * sqrt (edge_sq d D il ir)) * (/ sqrt (edge_sq d D il ir) * / sqrt (edge_sq d D il ir))) by (field; lra).
  apply Rmult_le_compat_r; [left; apply Rmult_lt_0_compat; apply Rinv_0_lt_compat; exact Q|]. apply Rmult_le_compat_l; assumption.
Qed.
(** in a gas the sound adds its own number, so a gas at rest is limited by the sound alone *)
Theorem C93_gas_courant dt d D il ir : 0 < edge_sq d D il ir -> 0 <= dt -> 0 <= cd_c D il -> 0 <= cd_c D ir ->
  fst (ip_cr true dt d D il ir) = fst (ip_cr false dt d D il ir) + dt * ((cd_c D il + cd_c D ir)/2) / sqrt (edge_sq d D il ir).
Proof.
  intros Hs Hd C1 C2. unfold ip_cr. cbn [fst].
  replace (sumn d (fun j => (cd_x D ir j - cd_x D il j) * (cd_x D ir j - cd_x D il j))) with (edge_sq d D il ir) by (apply sumn_ext; intros; unfold edge_vec; ring).
  set (V := sumn d _). assert (Q : 0 < sqrt (edge_sq d D il ir)) by (apply sqrt_lt_R0; exact Hs). set (L := sqrt (edge_sq d D il ir)) in *.
  assert (LL : L*L = edge_sq d D il ir) by (apply sqrt_sqrt; lra). rewrite <- LL in *.
  assert (I : 0 < / (L*L)) by (apply Rinv_0_lt_compat; exact Hs). pose proof (Rabs_pos V).
  set (W := Rabs V) in *. clearbody W.
  rewrite (Rabs_pos_eq ((W + 1/2*(cd_c D ir + cd_c D il)*L)*dt/(L*L))), (Rabs_pos_eq (W*dt/(L*L))).
  - field. lra.
  - apply Rmult_le_pos; [apply Rmult_le_pos; assumption|lra].
  - apply Rmult_le_pos; [|lra]. apply Rmult_le_pos; [|exact Hd]. apply Rplus_le_le_0_compat; [assumption|]. apply Rmult_le_pos; lra.
Qed.
(** a frame moving along with fluid and mesh sees the same numbers: only the velocity relative to the mesh enters (cd_u is velocity_rtm),
    and shifting the element does not change it *)
Theorem C93_translation_invariant gas dt d D il ir (s : nat -> R) :
  ip_cr gas dt d (mkCD (fun n j => cd_x D n j + s j) (cd_u D) (cd_rho D) (cd_mu D) (cd_c D)) il ir = ip_cr gas dt d D il ir.
Proof.
  unfold ip_cr. cbn [cd_x cd_u cd_rho cd_mu cd_c].
  rewrite (sumn_ext d (fun j => (cd_x D ir j + s j - (cd_x D il j + s j)) * ((1/2)*(cd_u D ir j + cd_u D il j))) (fun j => (cd_x D ir j - cd_x D il j) * ((1/2)*(cd_u D ir j + cd_u D il j)))) by (intros; ring).
  rewrite (sumn_ext d (fun j => (cd_x D ir j + s j - (cd_x D il j + s j)) * (cd_x D ir j + s j - (cd_x D il j + s j))) (fun j => (cd_x D ir j - cd_x D il j) * (cd_x D ir j - cd_x D il j))) by (intros; ring).
  reflexivity.
Qed.
(** a pair of nodes 1 apart in a flow of speed 2 with viscosity 1/10: Courant number 2 dt, Reynolds number about 20 *)
Definition ex_cd : cdata := mkCD (fun n j => if Nat.eqb j 0 then INR n else 0) (fun _ j => if Nat.eqb j 0 then 2 else 0) (fun _ => 1) (fun _ => 1/10) (fun _ => 3).
Theorem C93_edge_example : fst (ip_cr false (1/4) 3 ex_cd 0 1) = 1/2 /\ fst (ip_cr true (1/4) 3 ex_cd 0 1) = 5/4 /\ 0 < edge_sq 3 ex_cd 0 1 /\ physical 3 ex_cd 0.
Proof.
  assert (S : 0 < edge_sq 3 ex_cd 0 1) by (unfold edge_sq, edge_vec, sumn; cbn; lra).
  assert (E : fst (ip_cr false (1/4) 3 ex_cd 0 1) = 1/2).
  { rewrite (proj1 (C93_edge_courant (1/4) 3 ex_cd 0 1 S ltac:(lra))). unfold edge_sq, edge_vec, mid_vel, sumn. cbn [seq fold_left ex_cd cd_x cd_u Nat.eqb INR].
    replace (0 + (2+2)/2*(1-0) + (0+0)/2*(0-0) + (0+0)/2*(0-0)) with 2 by field. rewrite Rabs_pos_eq by lra. field. }
  split; [exact E|]. split.
  - rewrite C93_gas_courant by (try exact S; cbn; lra). rewrite E.
    assert (Q : edge_sq 3 ex_cd 0 1 = 1) by (unfold edge_sq, edge_vec, sumn; cbn; ring). rewrite Q, sqrt_1. cbn [ex_cd cd_c]. field.
  - split; [exact S|]. unfold physical. cbn [ex_cd cd_rho cd_mu cd_c]. lra.
Qed.

(** *** the finite-element version on a box *)
(** upper metric of a box-shaped hexahedron with edge lengths h *)
Definition box_metric (h : nat -> R) (i j : nat) : R := if Nat.eqb i j then (h i / 2)^2 else 0.
Definition gp_vel (m : fem) (D : cdata) (ip j : nat) : R := sumn (f_npe m) (fun ic => f_N m ip ic * cd_u D ic j).
Lemma box_lower h : 0 < h 0%nat -> 0 < h 1%nat -> 0 < h 2%nat -> forall i j, (i < 3)%nat -> (j < 3)%nat -> glo_of (box_metric h) i j = if Nat.eqb i j then (2 / h i)^2 else 0.
Proof.
  intros H0 H1 H2 i j Hi Hj. assert (Ci : (i = 0 \/ i = 1 \/ i = 2)%nat) by lia. assert (Cj : (j = 0 \/ j = 1 \/ j = 2)%nat) by lia.
  unfold glo_of, box_metric. cbn [Nat.eqb].
  destruct Ci as [->|[->| ->]]; destruct Cj as [->|[->| ->]]; cbn [nth Nat.eqb]; field; repeat split; lra.
Qed.
Lemma fem_uGu m h D ip : f_dim m = 3%nat -> 0 < h 0%nat -> 0 < h 1%nat -> 0 < h 2%nat ->
  sumn 3 (fun i => sumn 3 (fun j => gp_vel m D ip i * glo_of (box_metric h) i j * gp_vel m D ip j)) = 4 * sumn 3 (fun i => (gp_vel m D ip i / h i)^2).
Proof.
  intros Hd H0 H1 H2. rewrite (sumn_ext 3 (fun i => sumn 3 (fun j => gp_vel m D ip i * glo_of (box_metric h) i j * gp_vel m D ip j))
     (fun i => sumn 3 (fun j => gp_vel m D ip i * (if Nat.eqb i j then (2 / h i)^2 else 0) * gp_vel m D ip j))).
  - unfold sumn. cbn [seq fold_left Nat.eqb]. field. repeat split; lra.
  - intros i Hi. apply sumn_ext. intros j Hj. rewrite box_lower by assumption. reflexivity.
Qed.
(** dt times the root of the sum of (u_i/h_i)^2: between the largest of the directional numbers |u_i| dt/h_i and sqrt 3 times it *)
Theorem C93_fem_courant_box dt m h D ip : f_dim m = 3%nat -> 0 <= dt -> 0 < h 0%nat -> 0 < h 1%nat -> 0 < h 2%nat ->
  let C := fst (fem_cr dt m (fun _ => glo_of (box_metric h)) D ip) in
  C = dt * sqrt (sumn 3 (fun i => (gp_vel m D ip i / h i)^2))
  /\ (forall i, (i < 3)%nat -> dt * (Rabs (gp_vel m D ip i) / h i) <= C)
  /\ (forall M, (forall i, (i < 3)%nat -> dt * (Rabs (gp_vel m D ip i) / h i) <= M) -> C <= sqrt 3 * M).
Proof.
  intros Hd Ht H0 H1 H2 C.
  assert (E : C = dt * sqrt (sumn 3 (fun i => (gp_vel m D ip i / h i)^2))).
  { unfold C, fem_cr. cbn [fst]. rewrite Hd.
    change (sqrt (sumn 3 (fun i => sumn 3 (fun j => gp_vel m D ip i * glo_of (box_metric h) i j * gp_vel m D ip j))) * dt / 2 = dt * sqrt (sumn 3 (fun i => (gp_vel m D ip i / h i)^2))).
    rewrite (fem_uGu m h D ip Hd H0 H1 H2). rewrite sqrt_mult_alt by lra. replace (sqrt 4) with 2 by (symmetry; replace 4 with (2*2) by ring; apply sqrt_square; lra). field. }
  split; [exact E|]. rewrite E. clear E C.
  assert (HP : forall i, (i < 3)%nat -> 0 < h i) by (intros i Hi; assert (Ci : (i = 0 \/ i = 1 \/ i = 2)%nat) by lia; destruct Ci as [->|[->| ->]]; assumption).
  assert (AB : forall i, (i < 3)%nat -> Rabs (gp_vel m D ip i) / h i = sqrt ((gp_vel m D ip i / h i)^2)).
  { intros i Hi. rewrite <- Rsqr_pow2, sqrt_Rsqr_abs. unfold Rdiv. rewrite Rabs_mult, (Rabs_pos_eq (/ h i)); [reflexivity|]. left. apply Rinv_0_lt_compat, HP, Hi. }
  split.
  - intros i Hi. apply Rmult_le_compat_l; [exact Ht|]. rewrite (AB i Hi). apply sqrt_le_1_alt.
    set (f := fun k => (gp_vel m D ip k / h k)^2). change (f i <= sumn 3 f). assert (forall k, 0 <= f k) by (intros; apply pow2_ge_0).
    pose proof (H 0%nat). pose proof (H 1%nat). pose proof (H 2%nat). unfold sumn. cbn [seq fold_left].
    assert (Ci : (i = 0 \/ i = 1 \/ i = 2)%nat) by lia. destruct Ci as [->|[->| ->]]; lra.
  - intros M HM. assert (M0 : 0 <= M). { apply Rle_trans with (dt * (Rabs (gp_vel m D ip 0) / h 0%nat)); [|apply HM; lia]. apply Rmult_le_pos; [exact Ht|]. apply Rmult_le_pos; [apply Rabs_pos|left; apply Rinv_0_lt_compat, HP; lia]. }
    assert (B : forall i, (i < 3)%nat -> (dt * (gp_vel m D ip i / h i))^2 <= M^2).
    { intros i Hi. specialize (HM i Hi). rewrite (AB i Hi) in HM.
      assert (S : sqrt ((gp_vel m D ip i / h i)^2) * sqrt ((gp_vel m D ip i / h i)^2) = (gp_vel m D ip i / h i)^2) by (apply sqrt_sqrt, pow2_ge_0).
      pose proof (sqrt_pos ((gp_vel m D ip i / h i)^2)). assert (0 <= dt * sqrt ((gp_vel m D ip i / h i)^2)) by (apply Rmult_le_pos; assumption).
      replace ((dt * (gp_vel m D ip i / h i))^2) with ((dt * sqrt ((gp_vel m D ip i / h i)^2)) * (dt * sqrt ((gp_vel m D ip i / h i)^2))).
      - replace (M^2) with (M*M) by ring. apply Rmult_le_compat; assumption.
      - transitivity (dt*dt*(sqrt ((gp_vel m D ip i / h i)^2) * sqrt ((gp_vel m D ip i / h i)^2))); [ring|]. rewrite S. ring. }
    rewrite <- (sqrt_pow2 dt) by exact Ht. rewrite <- sqrt_mult_alt by apply pow2_ge_0. rewrite <- (sqrt_pow2 M) by exact M0. rewrite <- sqrt_mult_alt by lra.
    apply sqrt_le_1_alt. pose proof (B 0%nat ltac:(lia)). pose proof (B 1%nat ltac:(lia)). pose proof (B 2%nat ltac:(lia)).
    rewrite <- sumn_scal. unfold sumn. cbn [seq fold_left]. rewrite <- !Rpow_mult_distr. lra.
Qed.
(** and on a cube of edge h the Reynolds number is |u| h / nu *)
Theorem C93_fem_reynolds_cube dt m a D ip : f_dim m = 3%nat -> 0 < a ->
  let nu := sumn (f_npe m) (fun ic => f_N m ip ic * cd_mu D ic) / sumn (f_npe m) (fun ic => f_N m ip ic * cd_rho D ic) + 1/10^16 in 0 < nu ->
  snd (fem_cr dt m (fun _ => glo_of (box_metric (fun _ => a))) D ip) = sqrt (sumn 3 (fun i => (gp_vel m D ip i)^2)) * a / nu.
Proof.
  intros Hd Ha nu Hnu. unfold fem_cr. cbn [snd]. rewrite Hd. cbn [Nat.eqb]. fold nu.
  assert (G2 : sumn 3 (fun i => sumn 3 (fun j => glo_of (box_metric (fun _ => a)) i j * glo_of (box_metric (fun _ => a)) i j)) = 3 * (2/a)^4).
  { rewrite (sumn_ext 3 _ (fun i => sumn 3 (fun j => (if Nat.eqb i j then (2/a)^2 else 0) * (if Nat.eqb i j then (2/a)^2 else 0)))).
    - unfold sumn. cbn [seq fold_left Nat.eqb]. ring.
    - intros i Hi. apply sumn_ext. intros j Hj. rewrite (box_lower (fun _ => a)) by assumption. reflexivity. }
  rewrite G2.
  change (2 * sqrt (sumn 3 (fun i => sumn 3 (fun j => gp_vel m D ip i * glo_of (box_metric (fun _ => a)) i j * gp_vel m D ip j)) / (nu*nu*(3*(2/a)^4)/3)) = sqrt (sumn 3 (fun i => gp_vel m D ip i ^ 2)) * a / nu).
  rewrite (fem_uGu m (fun _ => a) D ip Hd Ha Ha Ha).
  rewrite (sumn_ext 3 (fun i => (gp_vel m D ip i / a)^2) (fun i => (/a^2) * (gp_vel m D ip i)^2)) by (intros; field; lra). rewrite sumn_scal.
  set (U := sumn 3 (fun i => gp_vel m D ip i ^ 2)).
  replace (4 * (/a^2 * U) / (nu*nu*(3*(2/a)^4)/3)) with (U * (a/(2*nu))^2) by (field; split; lra).
  rewrite sqrt_mult_alt by (apply sumn_nonneg; intros; apply pow2_ge_0). rewrite sqrt_pow2.
  - field. lra.
  - apply Rmult_le_pos; [lra|left; apply Rinv_0_lt_compat; lra].
Qed.
(** with no active element anywhere the realm's Courant number is -1, and the controller would answer with a negative step *)
Theorem C93_no_elements_refuted dt target factor : 0 < dt -> 0 < target -> 0 < factor ->
  exists dt', compute_adaptive_time_step dt target (fst (realm_cr false dt [[]])) factor = Some dt' /\ dt' < 0.
Proof.
  intros H1 H2 H3. unfold realm_cr, rank_cr. cbn [map tl hd fold_left fst]. unfold compute_adaptive_time_step, ieee_div.
  destruct (Req_EM_T (-1) 0) as [Z|_]; [lra|]. eexists. split; [reflexivity|]. destruct (Rlt_dec target (-1)); [lra|]. unfold std_min.
  destruct (Rlt_dec _ _); replace (target / -1) with (- target) in * by field; nra.
Qed.
