(** * Model of the time integrator (src/TimeIntegrator.C) and of the parts of
    Realm (src/Realm.C) that it drives.

    Simplifications (global to this file):
    - [double] is modelled by [R] (exact arithmetic), [int] by [Z] (no overflow);
    - what a realm does to its fields in a call is an arbitrary function [act]
      on an abstract world [W]; calls are recorded in a trace of events;
    - the text printed at lines 259-265 (step count, time, dtN, dtNm1, gammas)
      is recorded as one [log_line] per time step. *)
From Coq Require Import Reals ZArith List Bool.
Import ListNotations.
Open Scope R_scope.

(** Calls that the integrator makes on a realm, src/TimeIntegrator.C:150-341.
    [MultiXfer b]: process_multi_physics_transfer(b). *)
Inductive phase :=
| PopIC | PopBdry | BdryToState | PopInput | PopRestart | InitXfer | IoXfer
| PopExternal | ExtXfer | Derived | EvalProps | InitialWork | MultiXfer (init : bool)
| Output | AdaptDt | Swap | Predict | PreStep | Banner | Advance | PostConverged
| DumpTime.

(** One call: which method, on which realm (position-independent realm id). *)
Record event := mkEv { ev_phase : phase; ev_realm : nat }.

(** Data members of TimeIntegrator, include/TimeIntegrator.h and
    src/TimeIntegrator.C:33-51. *)
Record TI := mkTI {
  totalSimTime : R;
  currentTime : R;
  dtFile : R;
  dtN : R;
  dtNm1 : R;
  g1 : R; g2 : R; g3 : R;
  count : Z;
  maxCount : Z;
  secondOrder : bool;
  adaptive : bool;
  byTime : bool;
  nlIters : nat
}.

(** The StandardTimeIntegrator block of the input file, src/TimeIntegrator.C:73-100;
    [None] = key absent. [in_nl] is an int in the code; a negative value does no
    iteration, like 0, so it is modelled by [nat]. *)
Record input := mkInput {
  in_term_time : option R;
  in_term_count : option Z;
  in_time_step : option R;
  in_start_time : option R;
  in_count : option Z;
  in_second : option bool;
  in_nl : option nat;
  in_adaptive : bool   (* time_stepping_type given and different from "fixed" *)
}.

Definition dflt {A} (o : option A) (d : A) : A := match o with Some x => x | None => d end.

(** std::numeric_limits<int>::max(), src/TimeIntegrator.C:44 *)
Definition int_max : Z := 2147483647.

(** Constructor defaults (src/TimeIntegrator.C:33-48) followed by load (73-100). *)
Definition load (i : input) : TI :=
  {| totalSimTime := dflt (in_term_time i) 1;
     currentTime := dflt (in_start_time i) 0;
     dtFile := dflt (in_time_step i) 1;
     dtN := dflt (in_time_step i) 1;
     dtNm1 := dflt (in_time_step i) 1;
     g1 := 1; g2 := -1; g3 := 0;
     count := dflt (in_count i) 0%Z;
     maxCount := dflt (in_term_count i) int_max;
     secondOrder := dflt (in_second i) false;
     adaptive := in_adaptive i;
     byTime := match in_term_count i with
               | Some _ => false
               | None => match in_term_time i with Some _ => true | None => false end
               end;
     nlIters := dflt (in_nl i) 1%nat |}.

(** What a restart database contains, src/Realm.C:3814-3835 (read back in
    3898-3916): the time of the record, and the globals timeStepNm1 and
    timeStepCount, each possibly missing (abortIfNotFound=false). *)
Record restart_db := mkDb { db_time : R; db_dt : option R; db_count : option Z }.

(** The realms and the rest of the program, as seen by the integrator. *)
Record Env := mkEnv {
  W : Type;
  realms : list nat;
  act : phase -> nat -> TI -> W -> W;
  (* Realm::populate_variables_from_input, src/Realm.C:3936: time found in the mesh
     file if the realm reads input variables and is not restarted, [None] otherwise *)
  input_time : nat -> option R;
  (* [Some db] iff Realm::restarted_simulation() (the database selected by restart_time) *)
  restart_of : nat -> option restart_db;
  (* Realm::compute_adaptive_time_step *)
  propose : nat -> TI -> W -> R;
  (* type_ == "multi_physics" and Realm::provide_mean_norm *)
  is_multi : nat -> bool;
  mean_norm : nat -> W -> R
}.

(** Printed line, src/TimeIntegrator.C:259-265. *)
Record log_line := mkLog {
  l_count : Z; l_time : R; l_dtN : R; l_dtNm1 : R; l_g1 : R; l_g2 : R; l_g3 : R }.

Record state (E : Env) := mkSt {
  ti : TI; world : W E; trace : list event; log : list log_line }.
Arguments mkSt {E}. Arguments ti {E}. Arguments world {E}. Arguments trace {E}. Arguments log {E}.

Section Integrator.
Variable E : Env.
Notation st := (state E).

Definition with_ti (s : st) (t : TI) : st := mkSt t (world s) (trace s) (log s).

(** one call [ii->method()] *)
Definition call (p : phase) (s : st) (r : nat) : st :=
  mkSt (ti s) (act E p r (ti s) (world s)) (trace s ++ [mkEv p r]) (log s).

(** [for ( ii = realmVec_.begin(); ii!=realmVec_.end(); ++ii) ii->method();] *)
Definition for_each (p : phase) (s : st) : st := fold_left (call p) (realms E) s.

Definition set_time (t : TI) (x : R) : TI :=
  mkTI (totalSimTime t) x (dtFile t) (dtN t) (dtNm1 t) (g1 t) (g2 t) (g3 t) (count t)
       (maxCount t) (secondOrder t) (adaptive t) (byTime t) (nlIters t).
Definition set_dtN (t : TI) (x : R) : TI :=
  mkTI (totalSimTime t) (currentTime t) (dtFile t) x (dtNm1 t) (g1 t) (g2 t) (g3 t) (count t)
       (maxCount t) (secondOrder t) (adaptive t) (byTime t) (nlIters t).
Definition set_dtNm1 (t : TI) (x : R) : TI :=
  mkTI (totalSimTime t) (currentTime t) (dtFile t) (dtN t) x (g1 t) (g2 t) (g3 t) (count t)
       (maxCount t) (secondOrder t) (adaptive t) (byTime t) (nlIters t).
Definition set_count (t : TI) (x : Z) : TI :=
  mkTI (totalSimTime t) (currentTime t) (dtFile t) (dtN t) (dtNm1 t) (g1 t) (g2 t) (g3 t) x
       (maxCount t) (secondOrder t) (adaptive t) (byTime t) (nlIters t).
Definition set_gamma (t : TI) (a b c : R) : TI :=
  mkTI (totalSimTime t) (currentTime t) (dtFile t) (dtN t) (dtNm1 t) a b c (count t)
       (maxCount t) (secondOrder t) (adaptive t) (byTime t) (nlIters t).

(** src/TimeIntegrator.C:407-422 TimeIntegrator::compute_gamma *)
Definition compute_gamma (t : TI) : TI :=
  if (1 <? count t)%Z then
    let tau := dtN t / dtNm1 t in
    set_gamma t ((1 + 2 * tau) / (1 + tau)) (- (1 + tau)) (tau * tau / (1 + tau))
  else set_gamma t 1 (-1) 0.

(** src/TimeIntegrator.C:366-378 TimeIntegrator::simulation_proceeds *)
Definition simulation_proceeds (t : TI) : bool :=
  if byTime t
  then (if Rlt_dec (currentTime t) (totalSimTime t) then true else false)
  else (count t <? maxCount t)%Z.

(** src/TimeIntegrator.C:174-176; Realm::populate_variables_from_input, Realm.C:3936-3954:
    returns the incoming time unless variables are read (and the realm is not restarted). *)
Definition pop_input1 (s : st) (r : nat) : st :=
  let found := match restart_of E r, input_time E r with
               | None, Some x => x
               | _, _ => currentTime (ti s)
               end in
  let s1 := call PopInput s r in
  with_ti s1 (set_time (ti s1) found).

(** src/TimeIntegrator.C:179-181; Realm::populate_restart, Realm.C:3889-3930 (the
    restartResetTime_ override is part of [db_time]): timeStepNm1_ and timeStepCount_ are
    passed by reference and overwritten when present. *)
Definition pop_restart1 (s : st) (r : nat) : st :=
  let s1 := call PopRestart s r in
  match restart_of E r with
  | None => with_ti s1 (set_time (ti s1) (Rmax (currentTime (ti s1)) (currentTime (ti s1))))
  | Some db =>
      let t := ti s1 in
      let t1 := set_dtNm1 t (dflt (db_dt db) (dtNm1 t)) in
      let t2 := set_count t1 (dflt (db_count db) (count t1)) in
      with_ti s1 (set_time t2 (Rmax (currentTime t2) (db_time db)))
  end.

(** src/TimeIntegrator.C:226-230 *)
Definition init_multi1 (s : st) (r : nat) : st :=
  match restart_of E r with
  | Some _ => call (MultiXfer true) s r
  | None => s
  end.

(** start-up procedure, src/TimeIntegrator.C:158-235 *)
Definition startup (s0 : st) : st :=
  let s := for_each PopIC s0 in
  let s := for_each PopBdry s in
  let s := for_each BdryToState s in
  let s := fold_left pop_input1 (realms E) s in
  let s := fold_left pop_restart1 (realms E) s in
  let s := for_each InitXfer s in
  let s := for_each IoXfer s in
  let s := for_each PopExternal s in
  let s := for_each ExtXfer s in
  let s := with_ti s (set_dtN (ti s) (if adaptive (ti s) then dtNm1 (ti s) else dtFile (ti s))) in
  let s := for_each Derived s in
  let s := for_each EvalProps s in
  let s := for_each InitialWork s in
  let s := fold_left init_multi1 (realms E) s in
  for_each Output s.

(** src/TimeIntegrator.C:245-249: [theStep = std::min(theStep, compute_adaptive_time_step())].
    std::min(a,b) returns b if b<a, else a. *)
Definition std_min (a b : R) : R := if Rlt_dec b a then b else a.
Definition std_max (a b : R) : R := if Rlt_dec a b then b else a.

Definition negotiate1 (acc : R * st) (r : nat) : R * st :=
  let (theStep, s) := acc in
  (std_min theStep (propose E r (ti s) (world s)), call AdaptDt s r).

Definition negotiate (s : st) : st :=
  if adaptive (ti s) then
    let (theStep, s1) := fold_left negotiate1 (realms E) (100000000, s) in
    with_ti s1 (set_dtN (ti s1) theStep)
  else s.

(** src/TimeIntegrator.C:252-257 *)
Definition advance_clock (t : TI) : TI :=
  let t := set_time t (currentTime t + dtN t) in
  let t := set_count t (count t + 1)%Z in
  if secondOrder t then compute_gamma t else t.

(** src/TimeIntegrator.C:259-265 *)
Definition print_line (s : st) : st :=
  let t := ti s in
  mkSt t (world s) (trace s)
       (log s ++ [mkLog (count t) (currentTime t) (dtN t) (dtNm1 t) (g1 t) (g2 t) (g3 t)]).

(** src/TimeIntegrator.C:268-271 *)
Definition swap_predict1 (s : st) (r : nat) : st := call Predict (call Swap s r) r.
(** src/TimeIntegrator.C:303-306 *)
Definition advance1 (s : st) (r : nat) : st := call (MultiXfer false) (call Advance s r) r.

(** Picard loop, src/TimeIntegrator.C:299-307 *)
Fixpoint picard (n : nat) (s : st) : st :=
  match n with
  | O => s
  | S n' => picard n' (fold_left advance1 (realms E) s)
  end.

(** body of the time loop, src/TimeIntegrator.C:243-327 (provide_mean_norm, 325, only prints;
    it is modelled separately by [provide_mean_norm]). *)
Definition time_step (s : st) : st :=
  let s := negotiate s in
  let s := with_ti s (advance_clock (ti s)) in
  let s := print_line s in
  let s := fold_left swap_predict1 (realms E) s in
  let s := for_each PopExternal s in
  let s := for_each PreStep s in
  let s := for_each PopBdry s in
  let s := for_each Banner s in
  let s := for_each ExtXfer s in
  let s := picard (nlIters (ti s)) s in
  let s := for_each PostConverged s in
  let s := for_each IoXfer s in
  let s := for_each Output s in
  with_ti s (set_dtNm1 (ti s) (dtN (ti s))).

(** state after [n] passes through the loop body (not a function of the code; used to
    talk about intermediate states of a run) *)
Fixpoint steps (n : nat) (s : st) : st :=
  match n with O => s | S k => steps k (time_step s) end.

(** time loop, src/TimeIntegrator.C:241-328; [None] = still running after [fuel] steps *)
Fixpoint time_loop (fuel : nat) (s : st) : option st :=
  if simulation_proceeds (ti s) then
    match fuel with
    | O => None
    | S f => time_loop f (time_step s)
    end
  else Some s.

(** src/TimeIntegrator.C:150-341 TimeIntegrator::integrate_realm *)
Definition integrate_realm (fuel : nat) (i : input) (w0 : W E) : option st :=
  match time_loop fuel (startup (mkSt (load i) w0 [] [])) with
  | Some s => Some (for_each DumpTime s)
  | None => None
  end.

(** src/TimeIntegrator.C:345-362 TimeIntegrator::provide_mean_norm (the printed value) *)
Definition mean_norm1 (w : W E) (acc : R * Z) (r : nat) : R * Z :=
  let (sumNorm, incr) := acc in
  if is_multi E r then (sumNorm + mean_norm E r w, (incr + 1)%Z) else (sumNorm, incr).
Definition provide_mean_norm (w : W E) : R :=
  let (sumNorm, incr) := fold_left (mean_norm1 w) (realms E) (0, 0%Z) in
  sumNorm / IZR (Z.max 1 incr).

(** What Realm::provide_restart_output stores when called in state [t],
    src/Realm.C:3782-3820 (timeStepNm1 := get_time_step() = timeStepN_). *)
Definition restart_record (t : TI) : restart_db :=
  mkDb (currentTime t) (Some (dtN t)) (Some (count t)).

End Integrator.

(** ** Realm::compute_adaptive_time_step, src/Realm.C:1769-1785.
    Division by a zero maxCourant_ (its constructor value) is +infinity in IEEE
    arithmetic, or NaN when targetCourant_ is zero too: modelled explicitly. *)
Inductive xreal := Fin (r : R) | PInf | XNaN.
Definition ieee_div (a b : R) : xreal :=
  if Req_EM_T b 0 then (if Rlt_dec 0 a then PInf else XNaN) else Fin (a / b).

(** [None]: the scaling is not a number. std::min(inf,f)=f; std::max(inf,x) is unreachable
    because the first branch needs target<maxCourant. *)
Definition compute_adaptive_time_step (dt target maxCourant factor : R) : option R :=
  match ieee_div target maxCourant with
  | XNaN => None
  | PInf => Some (dt * factor)
  | Fin factorOff =>
      Some (dt * (if Rlt_dec target maxCourant
                  then std_max factorOff (1 / factor)
                  else std_min factorOff factor))
  end.

(** ** Output scheduling, src/Realm.C:3702-3764 and 3770-3846 (identical logic).
    [user_wall]: userWallTime….first, mutable; [exceeded]: g_elapsedWallTime > limit.
    Returns (is output, new user_wall). [%] is C++ remainder = Z.rem. *)
Definition provide_output (hasBlock : bool) (freq start : Z) (stepCount : Z)
           (user_wall exceeded : bool) : bool * bool :=
  if negb hasBlock then (false, user_wall)
  else if (freq =? 0)%Z then (false, user_wall)
  else
    let modStep := (stepCount - start)%Z in
    let forced := user_wall && exceeded in
    let user_wall' := if forced then false else user_wall in
    (((start <=? stepCount)%Z && (Z.rem modStep freq =? 0)%Z) || forced, user_wall').

(** A run calls it once per step: history of (stepCount, exceeded). *)
Fixpoint output_history (hasBlock : bool) (freq start : Z) (user_wall : bool)
         (h : list (Z * bool)) : list bool :=
  match h with
  | [] => []
  | (c, ex) :: t =>
      let (o, uw) := provide_output hasBlock freq start c user_wall ex in
      o :: output_history hasBlock freq start uw t
  end.

(** ** Nonlinear iteration, src/Realm.C:1683-1743 and 1748-1753. *)

(** Realm::active_time_step; [%] by zero is undefined behaviour: [None]. *)
Definition active_time_step (stepCount solveFrequency : Z) : option bool :=
  if (solveFrequency =? 0)%Z then None else Some (Z.rem stepCount solveFrequency =? 0)%Z.

Section Nonlinear.
Variable S : Type.                         (* fields of the realm *)
Variable solve_and_update : bool -> S -> S * bool. (* isFinalOuterIter_ -> state, converged *)

(** loop of lines 1717-1741: [i] iterations done of [n]; returns state and sweeps done *)
Fixpoint nl_loop (left : nat) (i n : nat) (s : S) : S * nat :=
  match left with
  | O => (s, i)
  | Datatypes.S k =>
      let isFinal := Nat.eqb (i + 1) n in
      let (s', conv) := solve_and_update isFinal s in
      if conv then (s', (i + 1)%nat) else nl_loop k (i + 1) n s'
  end.

Definition advance_time_step (active : bool) (maxIterations : nat) (s : S) : S * nat :=
  if active then nl_loop maxIterations 0 maxIterations s else (s, O).
End Nonlinear.

(** EquationSystem::system_is_converged, src/EquationSystem.C:130: [None] residual = no
    linear system. *)
Record eqsys := mkEq { eq_scaled_residual : option R; eq_tol : R }.
Definition system_is_converged (e : eqsys) : bool :=
  match eq_scaled_residual e with
  | None => true
  | Some r => if Rlt_dec r (eq_tol e) then true else false
  end.

(** ** One sweep over the equation systems, src/EquationSystems.C:811-847.
    Hooks are recorded as events; [k] is the registration index. *)
Inductive eq_event :=
| EqsPreIter | EqPre (k : nat) | EqSolve (k : nat) | EqPost (k : nat)
| EqPostDep (k : nat) | EqsPostIter | EqCheck (k : nat).

Section Sweep.
Variable S : Type.
Variable eff : eq_event -> S -> S.
Variable n_eq : nat.                 (* equationSystemVector_.size() *)
Variable system_of : nat -> S -> eqsys.

Definition eq_do (e : eq_event) (st : S * list eq_event) : S * list eq_event :=
  (eff e (fst st), snd st ++ [e]).

(** lines 816-823 *)
Definition sweep_solve (st : S * list eq_event) : S * list eq_event :=
  fold_left (fun a k => eq_do (EqPost k) (eq_do (EqSolve k) (eq_do (EqPre k) a)))
            (seq 0 n_eq) st.
(** lines 832-833 *)
Definition sweep_dep (st : S * list eq_event) : S * list eq_event :=
  fold_left (fun a k => eq_do (EqPostDep k) a) (seq 0 n_eq) st.
(** lines 839-844: no early exit *)
Definition sweep_check (s : S) : bool :=
  fold_left (fun ok k => if negb (system_is_converged (system_of k s)) then false else ok)
            (seq 0 n_eq) true.

Definition solve_and_update (s : S) : S * list eq_event * bool :=
  let st := eq_do EqsPreIter (s, []) in
  let st := sweep_solve st in
  let st := sweep_dep st in
  let st := eq_do EqsPostIter st in
  (st, sweep_check (fst st)).
End Sweep.

(** src/EquationSystems.C:866-877 provide_mean_system_norm; each system gives
    (provide_norm, provide_norm_increment). *)
Definition provide_mean_system_norm (l : list (R * R)) : R :=
  let (m, n) := fold_left (fun a x => (fst a + fst x, snd a + snd x)) l (0, 0) in m / n.
(** src/EquationSystems.C:853-861 provide_system_norm *)
Definition provide_system_norm (l : list R) : R :=
  fold_left (fun a x => std_max a x) l (- 10000000000000000).
