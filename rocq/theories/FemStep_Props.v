(** C110: the finite-element fractional step. *)
Require Import Reals List Arith Lra Lia.
From Verif Require Import RUtil Edge_Model Edge_Proofs Elem_Model Elem_Spec Elem_Proofs Fem_Model Fem_Spec Fem_Props Fem_Props2 FemStep_Model.
Import ListNotations.
Open Scope R_scope.

(** * Specification: the weak divergence, at a node, of a stabilised mass flux *)
Definition weak_div (es : list elem) (n : nat) (tau : R) (rho p v G : fld) : R :=
  at_node es n (fun e a => integral (el e) (fun ip => dot (f_dim (el e)) (dshape (el e) a ip)
    (fun j => sumn (f_npe (el e)) (fun c => f_N (el e) ip c * rho (conn e c) * v (conn e c * f_dim (el e) + j)%nat)
      - tau * (sumn (f_npe (el e)) (fun c => f_dn (el e) ip c j * p (conn e c)) - sumn (f_npe (el e)) (fun c => f_N (el e) ip c * G (conn e c * f_dim (el e) + j)%nat))))).
(** the weak divergence of the difference between the pressure gradient and its projection *)
Definition weak_stab (es : list elem) (n : nat) (p G : fld) : R :=
  at_node es n (fun e a => integral (el e) (fun ip => dot (f_dim (el e)) (dshape (el e) a ip)
    (fun j => sumn (f_npe (el e)) (fun c => f_dn (el e) ip c j * p (conn e c)) - sumn (f_npe (el e)) (fun c => f_N (el e) ip c * G (conn e c * f_dim (el e) + j)%nat)))).
Fixpoint total (l : list fld) (x : nat) : R := match l with [] => 0 | f :: r => f x + total r x end.

Lemma at_node_cons e es n f : at_node (e :: es) n f = sumn (f_npe (el e)) (fun a => if Nat.eqb (conn e a) n then f e a else 0) + at_node es n f. Proof. reflexivity. Qed.
Lemma at_node_ext es n f g : (forall e a, In e es -> (a < f_npe (el e))%nat -> f e a = g e a) -> at_node es n f = at_node es n g.
Proof.
  induction es as [|e es IH]; intros H; [reflexivity|]. rewrite !at_node_cons. f_equal; [|apply IH; intros; apply H; [right|]; assumption].
  apply sumn_ext. intros a Ha. destruct (Nat.eqb (conn e a) n); [apply H; [left; reflexivity|exact Ha]|reflexivity].
Qed.
Lemma at_node_lin es n f g c : at_node es n (fun e a => f e a + c * g e a) = at_node es n f + c * at_node es n g.
Proof.
  induction es as [|e es IH]; [cbn; ring|]. rewrite !at_node_cons, IH. rewrite (sumn_ext _ _ (fun a => (if Nat.eqb (conn e a) n then f e a else 0) + c * (if Nat.eqb (conn e a) n then g e a else 0))).
  - rewrite sumn_plus, sumn_scal. ring.
  - intros a _. destruct (Nat.eqb (conn e a) n); ring.
Qed.
Lemma at_node_0 es n : at_node es n (fun _ _ => 0) = 0.
Proof.
  induction es as [|e es IH]; [reflexivity|]. rewrite at_node_cons, IH. rewrite (sumn_ext _ _ (fun _ => 0)) by (intros a _; destruct (Nat.eqb (conn e a) n); reflexivity). rewrite sumn_zero by (intros; reflexivity). ring.
Qed.
Lemma gather_vec_at e v c j : (j < f_dim (el e))%nat -> gather_vec e v (c * f_dim (el e) + j)%nat = v (conn e c * f_dim (el e) + j)%nat.
Proof. intros H. unfold gather_vec. rewrite Nat.div_add_l by lia. rewrite (Nat.div_small j) by exact H. rewrite Nat.add_0_r. f_equal. f_equal. rewrite Nat.add_comm, Nat.mod_add by lia. apply Nat.mod_small. exact H. Qed.
Lemma stab_global e tau rho p v G ip j : (j < f_dim (el e))%nat ->
  stab_flux (el e) tau (gather e rho) (gather e p) (gather_vec e v) (gather_vec e G) ip j =
  sumn (f_npe (el e)) (fun c => f_N (el e) ip c * rho (conn e c) * v (conn e c * f_dim (el e) + j)%nat)
      - tau * (sumn (f_npe (el e)) (fun c => f_dn (el e) ip c j * p (conn e c)) - sumn (f_npe (el e)) (fun c => f_N (el e) ip c * G (conn e c * f_dim (el e) + j)%nat)).
Proof.
  intros H. unfold stab_flux, mass_flux, grad, value, comp, gather. f_equal.
  - apply sumn_ext. intros c _. rewrite gather_vec_at by exact H. reflexivity.
  - f_equal. f_equal. apply sumn_ext. intros c _. rewrite gather_vec_at by exact H. reflexivity.
Qed.
(** the assembled continuity residual is the weak divergence over tau *)
Lemma residual_is_weak_div es n tau rho p v G : tau <> 0 ->
  at_node es n (fun e a => eB (continuity_kernel tau rho p v G e) a) * tau = weak_div es n tau rho p v G.
Proof.
  intros T. unfold weak_div.
  rewrite <- (Rplus_0_l (at_node es n (fun e a => eB _ a) * tau)). rewrite Rmult_comm.
  rewrite <- (at_node_0 es n).
  rewrite <- at_node_lin. apply at_node_ext. intros e a _ Ha. unfold continuity_kernel.
  pose proof (C85_continuity_weak_form (el e) tau (gather e rho) (gather e p) (gather_vec e v) (gather_vec e G) zero_sys a Ha) as W. unfold added_rhs in W. cbn [eB zero_sys] in W.
  rewrite Rminus_0_r in W. rewrite W. rewrite Rplus_0_l. unfold Rdiv. rewrite Rmult_comm, Rmult_assoc, Rinv_l, Rmult_1_r by exact T.
  unfold integral. apply sumn_ext. intros ip _. f_equal. unfold dot. apply sumn_ext. intros j Hj. f_equal. apply stab_global. exact Hj.
Qed.
(** a solved pressure system leaves, with the new pressure and the old gradient and velocity, exactly the given boundary flux *)
Lemma solved_weak_div es n b tau rho p v G dp : tau <> 0 -> solved_at es n b tau rho p v G dp -> weak_div es n tau rho (fun x => 1 * dp x + 1 * p x) v G = - (tau * b).
Proof.
  intros T H. rewrite <- residual_is_weak_div by exact T. unfold solved_at in H.
  assert (E : at_node es n (fun e a => eB (continuity_kernel tau rho (fun x => 1 * dp x + 1 * p x) v G e) a) =
     at_node es n (fun e a => eB (continuity_kernel tau rho p v G e) a) + (-1) * at_node es n (fun e a => sumn (f_npe (el e)) (fun c => eL_ (continuity_kernel tau rho p v G e) a c * dp (conn e c)))).
  { rewrite <- at_node_lin. apply at_node_ext. intros e a _ Ha. unfold continuity_kernel.
    pose proof (C85_continuity_newton (el e) tau (gather e rho) (gather_vec e v) (gather_vec e G) T (gather e p) (gather e dp) zero_sys a Ha) as N.
    cbn [eL_ zero_sys] in N.
    assert (X : eB (fem_continuity (el e) tau (gather e rho) (gather e (fun x => 1 * dp x + 1 * p x)) (gather_vec e v) (gather_vec e G) zero_sys) a =
                eB (fem_continuity (el e) tau (gather e rho) (fun q => gather e p q + gather e dp q) (gather_vec e v) (gather_vec e G) zero_sys) a).
    { pose proof (C85_continuity_weak_form (el e) tau (gather e rho) (gather e (fun x => 1 * dp x + 1 * p x)) (gather_vec e v) (gather_vec e G) zero_sys a Ha) as W1.
      pose proof (C85_continuity_weak_form (el e) tau (gather e rho) (fun q => gather e p q + gather e dp q) (gather_vec e v) (gather_vec e G) zero_sys a Ha) as W2.
      unfold added_rhs in W1, W2. cbn [eB zero_sys] in W1, W2. rewrite Rminus_0_r in W1, W2. rewrite W1, W2. f_equal. unfold integral. apply sumn_ext. intros ip _. f_equal. unfold dot.
      apply sumn_ext. intros j _. f_equal. unfold stab_flux. f_equal. f_equal. f_equal. unfold grad, gather. apply sumn_ext. intros; ring. }
    rewrite X, N. rewrite (sumn_ext (f_npe (el e)) _ (fun c => eL_ (fem_continuity (el e) tau (gather e rho) (gather e p) (gather_vec e v) (gather_vec e G) zero_sys) a c * dp (conn e c))) by (intros; unfold gather; ring).
    ring. }
  rewrite E, H. ring.
Qed.

Section P.
Variables (d : nat) (moving : bool) (vmesh : fld) (tau : R) (rho : fld) (projected : nat -> bool) (PNG : fld -> fld).
Let vr := vrtm moving vmesh.
Let iter := iteration d moving vmesh tau rho projected PNG.
(** the flux that the next iteration's equations are advected with, built from the lagged fields, is the one the pressure solve balanced: its
    weak divergence at every node where the system was solved is the given boundary flux (none in the interior) *)
Theorem C110_advecting_flux_is_balanced : forall es n b s du dp, tau <> 0 ->
  solved_at es n b tau rho (lm_p s) (vr (lm_u (momentum du s))) (lm_G s) dp ->
  let s' := iter s (du, dp) in weak_div es n tau rho (lm_p s') (lm_vL s') (lm_GL s') = - (tau * b).
Proof. intros es n b s du dp T H s'. apply (solved_weak_div es n b tau rho (lm_p s) (vr (lm_u (momentum du s))) (lm_G s) dp T H). Qed.
(** so the momentum equation of the next iteration creates no momentum out of a uniform flow *)
Theorem C110_uniform_flow_feels_no_source : forall es n s du dp i, tau <> 0 -> (forall e, In e es -> fem_unity (el e) /\ (i < f_dim (el e))%nat) ->
  solved_at es n 0 tau rho (lm_p s) (vr (lm_u (momentum du s))) (lm_G s) dp ->
  at_node es n (fun e a => eB (momentum_kernel tau rho (iter s (du, dp)) (fun _ => 1) e) (a * f_dim (el e) + i)%nat) = 0.
Proof.
  intros es n s du dp i T U H. pose proof (C110_advecting_flux_is_balanced es n 0 s du dp T H) as W. cbv zeta in W. set (s' := iter s (du, dp)) in *.
  rewrite <- residual_is_weak_div in W by exact T.
  assert (E : at_node es n (fun e a => eB (momentum_kernel tau rho s' (fun _ => 1) e) (a * f_dim (el e) + i)%nat) =
     at_node es n (fun _ _ => 0) + tau * at_node es n (fun e a => eB (continuity_kernel tau rho (lm_p s') (lm_vL s') (lm_GL s') e) a)).
  { rewrite <- at_node_lin. apply at_node_ext. intros e a I Ha. destruct (U e I) as [U1 U2].
    pose proof (C85_advection_consistent_with_continuity (el e) tau (gather e rho) (gather e (lm_p s')) (gather_vec e (lm_vL s')) (gather_vec e (lm_GL s')) zero_sys a i T U1 Ha U2) as K.
    unfold added_rhs in K. cbn [eB zero_sys] in K. rewrite !Rminus_0_r in K. unfold momentum_kernel, continuity_kernel. rewrite K. ring. }
  rewrite E, at_node_0, Rmult_comm, W. ring.
Qed.
(** used with another projection time scale (the first iteration after the time step or its formula changes) the flux is out of balance by the
    change of the scale times the stabilisation *)
Theorem C110_changed_time_scale : forall es n b s du dp tau', tau <> 0 ->
  solved_at es n b tau rho (lm_p s) (vr (lm_u (momentum du s))) (lm_G s) dp ->
  let s' := iter s (du, dp) in weak_div es n tau' rho (lm_p s') (lm_vL s') (lm_GL s') = - (tau * b) + (tau - tau') * weak_stab es n (lm_p s') (lm_GL s').
Proof.
  intros es n b s du dp tau' T H s'. rewrite <- (C110_advecting_flux_is_balanced es n b s du dp T H). fold s'. unfold weak_div at 2. unfold weak_stab.
  rewrite <- at_node_lin. unfold weak_div. apply at_node_ext. intros e a _ _. unfold integral. rewrite <- sumn_scal, <- sumn_plus. apply sumn_ext. intros ip _.
  match goal with |- _ * dot ?k ?m ?A = _ * dot _ _ ?B + _ * (_ * dot _ _ ?C) => assert (E : dot k m A = dot k m B + (tau - tau') * dot k m C) by (unfold dot; rewrite <- sumn_scal, <- sumn_plus; apply sumn_ext; intros; ring) end.
  rewrite E. ring.
Qed.
(** after every iteration the projected gradient is that of the pressure, and at a projected node velocity and lagged velocity differ by exactly
    the gradient's change; elsewhere they agree *)
Theorem C110_projection : forall s du dp, let s' := iter s (du, dp) in
  lm_G s' = PNG (lm_p s') /\ (forall x, lm_p s' x = lm_p s x + dp x) /\ lm_GL s' = lm_G s /\
  (forall x, projected (x / d)%nat = true -> vr (lm_u s') x = lm_vL s' x - tau / rho (x / d)%nat * (lm_G s' x - lm_GL s' x)) /\
  (forall x, projected (x / d)%nat = false -> vr (lm_u s') x = lm_vL s' x /\ lm_u s' x = lm_u s x + du x).
Proof.
  intros s du dp s'. split; [reflexivity|]. split; [intros x; cbn; ring|]. split; [reflexivity|]. split; intros x P.
  - unfold s', iter, iteration, project, copy_lagged, vr, vrtm. cbn. destruct moving; rewrite P; ring.
  - unfold s', iter, iteration, project, copy_lagged, vr, vrtm. cbn. destruct moving; rewrite P; split; ring.
Qed.
(** the lagged velocity is what the momentum solve gave, relative to the mesh if it moves; the flux of the balance, spelled out *)
Theorem C110_lagged_velocity : forall s du dp x, lm_vL (iter s (du, dp)) x = lm_u s x + du x - (if moving then vmesh x else 0).
Proof. intros. unfold iter, iteration, project, copy_lagged, vrtm. cbn. destruct moving; ring. Qed.
(** any number of iterations, starting from a gradient that is the pressure's: the velocity is what the momentum solves gave, corrected once by the
    total change of the pressure gradient; velocities fixed at boundaries are what the momentum solves gave *)
Theorem C110_total_correction : forall its s, lm_G s = PNG (lm_p s) -> let s' := solve_and_update d moving vmesh tau rho projected PNG false its s in
  lm_G s' = PNG (lm_p s') /\ (forall x, lm_p s' x = lm_p s x + total (map snd its) x) /\
  (forall x, projected (x / d)%nat = true -> lm_u s' x = lm_u s x + total (map fst its) x - tau / rho (x / d)%nat * (PNG (lm_p s') x - PNG (lm_p s) x)) /\
  (forall x, projected (x / d)%nat = false -> lm_u s' x = lm_u s x + total (map fst its) x).
Proof.
  intros its. unfold solve_and_update. induction its as [|[du dp] its IH]; intros s G; cbn zeta.
  - cbn. repeat split; intros; try exact G; try ring. 
  - cbn [fold_left]. destruct (C110_projection s du dp) as (A & B & C & D & F). unfold iter in *. set (s1 := iteration d moving vmesh tau rho projected PNG s (du, dp)) in *.
    destruct (IH s1 A) as (A2 & B2 & D2 & F2). split; [exact A2|]. split; [|split].
    + intros x. rewrite B2, B. cbn. ring.
    + intros x P. rewrite (D2 x P). cbn [map fst total].
      assert (E : lm_u s1 x = lm_u s x + du x - tau / rho (x / d)%nat * (PNG (lm_p s1) x - PNG (lm_p s) x)).
      { rewrite <- G. unfold s1, iteration, project, copy_lagged. cbn. rewrite P. ring. }
      rewrite E. ring.
    + intros x P. rewrite (F2 x P). rewrite (proj2 (F x P)). cbn. ring.
Qed.
(** the first call makes the gradient the pressure's, so that the theorem above holds from the first step on *)
Theorem C110_first_call : forall its s, let s' := solve_and_update d moving vmesh tau rho projected PNG true its s in let s0 := init moving vmesh PNG s in
  s' = solve_and_update d moving vmesh tau rho projected PNG false its s0 /\ lm_G s0 = PNG (lm_p s0) /\ lm_p s0 = lm_p s /\ lm_u s0 = lm_u s /\ lm_GL s0 = lm_G s0 /\ lm_vL s0 = vr (lm_u s).
Proof. intros. repeat split; reflexivity. Qed.
End P.

(** * A solved system: two linear elements on a line of three nodes, moved apart; the middle row *)
Definition bar (h : R) (n0 : nat) : elem := mkElem (mkFem 2 1 1 (fun _ _ => 1/2) (fun _ c _ => match c with O => -1/h | _ => 1/h end) (fun _ => h/2) (fun _ => 2)) (fun a => n0 + a)%nat.
Theorem C110_nonvacuous : let es := [bar 1 0; bar 1 1] in let u := fun x => match x with 0%nat => 1 | 1%nat => 2 | _ => 5 end in let dp := fun x => match x with 1%nat => -1 | _ => 0 end in
  solved_at es 1 0 1 (fun _ => 1) (fun _ => 0) u (fun _ => 0) dp /\ (forall e, In e es -> fem_unity (el e)) /\ weak_div es 1 1 (fun _ => 1) (fun _ => 0) u (fun _ => 0) <> 0.
Proof.
  cbv zeta. split; [|split].
  - unfold solved_at, at_node, sumn. cbn. unfold rhoU_gp, sumn, ipF. cbn. unfold gather, gather_vec. lra.
  - intros e [<-|[<-|[]]] ip _; unfold sumn; cbn; lra.
  - unfold weak_div, at_node, integral, dot, dshape, sumn. cbn. lra.
Qed.
