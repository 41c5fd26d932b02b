(** C74 continued: the reported wall-function force is the one in the momentum equation; double requests; mixed nodes *)
Require Import Reals List Bool Arith Lra Lia Permutation.
From Verif Require Import Edge_Model Edge_Proofs Elem_Model Elem_Proofs Wall_Model Wall_Props2 Bnd_Spec Force_Model Force_Spec Force_Proofs Force_Props Force_Props2.
From Verif Require Sum_Proofs Geom_Props Rad_Quad_Proofs3 Tab_LU_Props.
Import ListNotations.
Open Scope R_scope.

(** a wall face of the momentum assembly with its nodes' global numbers and the stored wall data *)
Record gface := mkGF { gf : wface; gcon : nat -> nat; g_yp : nat -> R; g_ut : nat -> R }.
(** the same face as the post-processing loop visits it *)
Definition face_points (F : gface) : list spt :=
  map (fun ip => mkPt (gcon F (fmap (gf F) ip)) (fA (gf F) ip)
        (map (fun ic => (fN (gf F) ip ic, gcon F ic)) (seq 0 (fnod (gf F)))) 0 (g_yp F ip) (g_ut F ip)) (seq 0 (fip (gf F))).
(** force the momentum equation of face F feels in direction i: sum over its nodes of the rhs contribution *)
Definition momentum_force (kappa : R) (f : sfields) (F : gface) (i : nat) : R :=
  let w := gf F in
  let loc q := fun a => q (gcon F a) in
  let locv (q : nat -> vec) := fun k => q (gcon F (k / fdim w)) (k mod fdim w) in
  let s0 := mkE (fun _ _ => 0) (fun _ => 0) in
  sumn (fnod w) (fun a => eB (wall_traction w kappa (loc (q_rho f)) (loc (q_mu f)) (g_yp F) (g_ut F) (locv (q_ubc f)) (locv (q_u f)) s0) (a * fdim w + i)%nat).
Lemma face_at F q ip yp ut : at_pt (mkPt (gcon F (fmap (gf F) ip)) (fA (gf F) ip) (map (fun ic => (fN (gf F) ip ic, gcon F ic)) (seq 0 (fnod (gf F)))) 0 yp ut) q
  = at_f (gf F) (fun a => q (gcon F a)) ip.
Proof. unfold at_pt, at_f. cbn [s_N]. rewrite (Rad_Quad_Proofs3.lsum_map_seq (fun p : R * nat => fst p * q (snd p)) (fun ic => (fN (gf F) ip ic, gcon F ic))). reflexivity. Qed.
(** The viscous force reported for wall-function faces is the reaction of the one the momentum equation receives there. *)
Theorem C74_wall_function_force_balances_momentum n nr incl kappa f algs g faces i :
  (n <= 3)%nat -> (i < n)%nat -> length (a_pts g) = nr -> a_wf g = true ->
  Permutation (points g) (flat_map face_points faces) ->
  (forall F, In F faces -> fmap_ok (gf F) /\ fdim (gf F) = n) ->
  report_fm n nr incl kappa f algs g (3 + i) = - lsum (fun F => momentum_force kappa f F i) faces.
Proof.
  intros Hn Hi HL Hw HP HF. rewrite C74_viscous_force by (try assumption; lia). rewrite Hw, (Sum_Proofs.lsum_perm _ _ _ HP), Geom_Props.lsum_flat.
  replace (- lsum (fun F => momentum_force kappa f F i) faces) with (lsum (fun F => (-1) * momentum_force kappa f F i) faces) by (rewrite lsum_scal; ring).
  apply lsum_ext. intros F HIn. destruct (HF F HIn) as (HM & Hd). unfold momentum_force. cbv zeta.
  set (w := gf F) in *.
  set (rho := fun a => q_rho f (gcon F a)). set (mu := fun a => q_mu f (gcon F a)).
  set (u := fun k => q_u f (gcon F (k / fdim w)) (k mod fdim w)). set (bc := fun k => q_ubc f (gcon F (k / fdim w)) (k mod fdim w)).
  rewrite (sumn_ext (fnod w) _ (fun a => eB (wall_traction w kappa rho mu (g_yp F) (g_ut F) bc u (mkE (fun _ _ => 0) (fun _ => 0))) (a * fdim w + i) - eB (mkE (fun _ _ => 0) (fun _ => 0)) (a * fdim w + i)%nat)) by (intros; cbn [eB]; ring).
  rewrite (proj1 (C67_wall_force w kappa rho mu (g_yp F) (g_ut F) bc u (mkE (fun _ _ => 0) (fun _ => 0)) HM)) by (rewrite Hd; exact Hi).
  unfold face_points. fold w. rewrite (Rad_Quad_Proofs3.lsum_map_seq (fun b => wf_force n kappa f b i)). 
  match goal with |- _ = -1 * - ?s => replace (-1 * - s) with s by ring end. apply sumn_ext. intros ip Hip.
  unfold wf_force. cbn [s_A s_yp s_ut].
  change (gcon F (fmap w ip)) with (gcon F (fmap (gf F) ip)). change (fA w ip) with (fA (gf F) ip).
  change (map (fun ic => (fN w ip ic, gcon F ic)) (seq 0 (fnod w))) with (map (fun ic => (fN (gf F) ip ic, gcon F ic)) (seq 0 (fnod (gf F)))).
  rewrite !face_at. fold w. unfold wlam. rewrite Hd. f_equal.
  assert (U : forall (q : nat -> vec) j, (j < n)%nat -> at_pt (mkPt (gcon F (fmap (gf F) ip)) (fA (gf F) ip) (map (fun ic => (fN (gf F) ip ic, gcon F ic)) (seq 0 (fnod (gf F)))) 0 (g_yp F ip) (g_ut F ip)) (fun a => q a j)
     = uat_f w (fun k => q (gcon F (k / fdim w)) (k mod fdim w)) ip j).
  { intros q j Hj. rewrite face_at. fold w. unfold at_f, uat_f. apply sumn_ext. intros ic _. f_equal. rewrite Hd.
    rewrite Nat.div_add_l, Nat.div_small, Nat.add_0_r by lia. rewrite Nat.add_comm, Nat.mod_add, Nat.mod_small by lia. reflexivity. }
  unfold tangential_part, normal_part, slip. rewrite !U by exact Hi. fold u bc. f_equal. unfold wn. rewrite Hd. f_equal. unfold dotp. apply sumn_ext. intros j Hj. rewrite !U by exact Hj. reflexivity.
Qed.

(** Naming the same surface in two requests reports the right force in each, but doubles the nodal pressure force. *)
Theorem C74_two_requests_double_nodal_force_refuted :
  exists n nr incl kappa f g a i, (i < n)%nat /\ length (a_pts g) = nr /\
    nodal_pressure_force n nr incl kappa f [g] a i <> 0 /\
    nodal_pressure_force n nr incl kappa f [g; g] a i = 2 * nodal_pressure_force n nr incl kappa f [g] a i /\
    report_fm n nr incl kappa f [g; g] g i = nodal_pressure_force n nr incl kappa f [g] a i.
Proof.
  exists 2%nat, 1%nat, 0, (1/2), (mkSF (fun _ _ => 0) (fun _ => 3) (fun _ => 1) (fun _ => 1) (fun _ _ _ => 0) (fun _ _ => 0) (fun _ _ => 0)),
    (mkAlg false (fun _ => 0) [[mkPt 0 (fun j => if Nat.eqb j 0 then 1 else 0) [(1, 0%nat)] 1 0 0]]), 0%nat, 0%nat.
  split; [lia|]. split; [reflexivity|].
  rewrite C74_pressure_force by (auto; lia). 
  rewrite !nodal_pf_sum by (try lia; intros g H; repeat (destruct H as [<-|H]; [reflexivity|]); destruct H).
  unfold points, p_force, at_pt, lsum. cbn. repeat split; lra.
Qed.
(** A node shared by a resolved and a wall-function face gets the sum of two means, outside the range of both. *)
Theorem C74_mixed_node_between_refuted :
  exists n nr incl kappa f gr gw a, a_wf gr = false /\ a_wf gw = true /\ length (a_pts gr) = nr /\ length (a_pts gw) = nr /\
    (forall g b, In g [gr; gw] -> In b (points g) -> s_nn b = a /\ 0 < amag n (s_A b) /\ k_yplus (kern n incl kappa f g b) = 1) /\
    nodal_yplus n nr incl kappa f [gr; gw] a = 2.
Proof.
  set (b := mkPt 0 (fun j => if Nat.eqb j 1 then 1 else 0) [(1, 0%nat)] 1 1 1).
  set (f := mkSF (fun a j => if Nat.eqb j 1 then INR a else 0) (fun _ => 0) (fun _ => 1) (fun _ => 1)
               (fun _ i j => if (Nat.eqb i 0 && Nat.eqb j 1)%bool then 1 else 0) (fun _ _ => 0) (fun _ _ => 0)).
  set (gr := mkAlg false (fun _ => 0) [[b]]). set (gw := mkAlg true (fun _ => 0) [[b]]).
  assert (Ha : amag 2 (s_A b) = 1) by (unfold amag; cbn; replace (0 + 0 * 0 + 1 * 1) with 1 by ring; apply sqrt_1).
  assert (Y1 : k_yplus (modelled 2 1 f b) = 1) by (unfold modelled; cbn; field).
  assert (Y2 : k_yplus (resolved 2 0 f b) = 1).
  { unfold resolved. cbn [k_yplus]. rewrite !ipol_at. unfold nrm. rewrite Ha. unfold at_pt, lsum. cbn -[sqrt].
    repeat match goal with |- context [sqrt ?t] => lazymatch t with context [sqrt] => fail | 1 => fail | _ => replace t with 1 by field; rewrite sqrt_1 end end.
    field. }
  exists 2%nat, 1%nat, 0, 1, f, gr, gw, 0%nat. split; [reflexivity|]. split; [reflexivity|]. split; [reflexivity|]. split; [reflexivity|]. split.
  - intros g b' [<-|[<-|[]]] [<-|[]]; (split; [reflexivity|]; split; [rewrite Ha; lra|]); [exact Y2|exact Y1].
  - rewrite (proj2 (C74_nodal_fields 2 1 0 1 f [gr; gw] ltac:(intros g [<-|[<-|[]]]; reflexivity) 0)).
    change (kind_points [gr; gw] true) with [b]. change (kind_points [gr; gw] false) with [b].
    unfold node_mean, node_area, lsum. cbn [map fold_right]. change (Nat.eqb (s_nn b) 0) with true. cbn iota. rewrite Ha, Y1, Y2. field.
Qed.
(** Hypotheses of the theorems above are met by a closed unit square with pressure 3 split over two ranks. *)
Definition sq_pt (a : nat) (x y : R) : spt := mkPt a (fun j => if Nat.eqb j 0 then x else if Nat.eqb j 1 then y else 0) [(1/2, a); (1/2, S a)] (a + 4) 1 1.
Example C74_hypotheses_met : 
  let g := mkAlg false (fun _ => 1) [[sq_pt 0 1 0; sq_pt 1 0 1]; [sq_pt 2 (-1) 0; sq_pt 3 0 (-1)]] in
  let g' := mkAlg false (fun _ => 1) [[sq_pt 3 0 (-1); sq_pt 1 0 1; sq_pt 2 (-1) 0; sq_pt 0 1 0]] in
  let f := mkSF (fun a _ => INR a) (fun _ => 3) (fun _ => 1) (fun _ => 1) (fun _ i j => INR i - INR j) (fun _ _ => 0) (fun _ _ => 0) in
  same_request 2 1 g g' /\ (forall k, (k < 2)%nat -> lsum (fun b => s_A b k) (points g) = 0) /\
  (forall b, In b (points g) -> lsum fst (s_N b) = 1 /\ 0 < amag 2 (s_A b)) /\
  (forall a i j, q_dudx f a i j = - q_dudx f a j i) /\ (exists b, In b (points g) /\ s_nn b = 2%nat).
Proof.
  cbv zeta. split; [|split; [|split; [|split]]].
  - split; [reflexivity|]. split; [reflexivity|]. split; [reflexivity|]. split; [reflexivity|]. unfold points. cbn [a_pts concat app].
    set (p0 := sq_pt 0 1 0). set (p1 := sq_pt 1 0 1). set (p2 := sq_pt 2 (-1) 0). set (p3 := sq_pt 3 0 (-1)).
    eapply perm_trans; [apply (Permutation_rev [p0; p1; p2; p3])|]. cbn. apply perm_skip. apply perm_swap.
  - intros k Hk. unfold points, lsum, sq_pt. cbn. destruct k as [|[|k]]; [| |lia]; cbn; ring.
  - intros b Hb. cbn in Hb. unfold amag. repeat (destruct Hb as [<-|Hb]; [split; [unfold lsum; cbn; lra|apply sqrt_lt_R0; cbn; lra]|]). destruct Hb.
  - intros a i j. cbn. ring.
  - exists (sq_pt 2 (-1) 0). split; [right; right; left; reflexivity|reflexivity].
Qed.

(** the forces are computed on exactly the steps that are multiples of the output frequency *)
Theorem C74_frequency step freq : (0 < freq)%nat -> (process_me step freq = true <-> exists k, step = (k*freq)%nat).
Proof.
  intros Hf. unfold process_me. rewrite Nat.eqb_eq. split.
  - intros H. exists (step / freq)%nat. rewrite (Nat.div_mod step freq) at 1 by lia. lia.
  - intros [k ->]. apply Nat.mod_mul. lia.
Qed.
Example C74_frequency_example : process_me 6 3 = true /\ process_me 7 3 = false.
Proof. split; reflexivity. Qed.
