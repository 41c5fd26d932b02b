(** * Specification vocabulary for the time-integration properties that mentions
    the model's observable types (events, printed lines, restart records). *)
From Coq Require Import Reals ZArith List Bool.
From Verif Require Import Time_Model Time_Spec.
Import ListNotations.
Open Scope R_scope.

(** C01: what a printed line's coefficients must satisfy *)
Definition consistent_line (second : bool) (l : log_line) : Prop :=
  l_g1 l + l_g2 l + l_g3 l = 0 /\
  (second = true -> (1 < l_count l)%Z ->
     exact_for_quadratics (l_g1 l) (l_g2 l) (l_g3 l) (l_dtN l) (l_dtNm1 l)) /\
  (second = false \/ (l_count l <= 1)%Z ->
     l_g3 l = 0 /\ exact_for_linears (l_g1 l) (l_g2 l) (l_dtN l)).

(** every realm proposes a positive step when the previous one was positive *)
Definition positive_env (E : Env) := forall r t w, 0 < dtN t -> 0 < propose E r t w.

(** C02: the starting step count: the input value unless restart databases override it (last wins) *)
Fixpoint last_restart_count (E : Env) (rs : list nat) (c : Z) : Z :=
  match rs with
  | [] => c
  | r :: t => last_restart_count E t
      (match restart_of E r with Some db => dflt (db_count db) c | None => c end)
  end.

(** C04 *)
Definition is_ph (l : list phase) (e : event) : Prop := In (ev_phase e) l.

Definition phase_eqb (a b : phase) : bool :=
  match a, b with
  | PopIC, PopIC | PopBdry, PopBdry | BdryToState, BdryToState | PopInput, PopInput
  | PopRestart, PopRestart | InitXfer, InitXfer | IoXfer, IoXfer | PopExternal, PopExternal
  | ExtXfer, ExtXfer | Derived, Derived | EvalProps, EvalProps | InitialWork, InitialWork
  | Output, Output | AdaptDt, AdaptDt | Swap, Swap | Predict, Predict | PreStep, PreStep
  | Banner, Banner | Advance, Advance | PostConverged, PostConverged | DumpTime, DumpTime => true
  | MultiXfer x, MultiXfer y => Bool.eqb x y
  | _, _ => false
  end.

(** what one time step's call sequence must satisfy *)
Record lockstep (rs : list nat) (nl : nat) (adapt : bool) (seg : list event) : Prop := {
  (* all states are swapped/predicted before any realm moves its mesh *)
  ls_states : all_before (is_ph [AdaptDt; Swap; Predict]) (is_ph [PopExternal; PreStep]) seg;
  ls_motion : all_before (is_ph [PreStep]) (is_ph [PopBdry]) seg;
  (* all realms have moved and have boundary data before any solve *)
  ls_bdry : all_before (is_ph [AdaptDt; Swap; Predict; PopExternal; PreStep; PopBdry; Banner; ExtXfer])
                       (is_ph [Advance; MultiXfer false]) seg;
  (* every output follows every solve and every post-converged work *)
  ls_post : all_before (is_ph [Advance; MultiXfer false]) (is_ph [PostConverged; IoXfer; Output]) seg;
  ls_out : all_before (is_ph [PostConverged; IoXfer]) (is_ph [Output]) seg;
  (* solves: nl passes over the realm list, each solve followed by its transfer *)
  ls_solves : filter (fun e => phase_eqb (ev_phase e) Advance || phase_eqb (ev_phase e) (MultiXfer false)) seg
     = concat (repeat (flat_map (fun r => [mkEv Advance r; mkEv (MultiXfer false) r]) rs) nl);
  (* each realm once: swap then predict; pre-step; output *)
  ls_swaps : filter (fun e => phase_eqb (ev_phase e) Swap || phase_eqb (ev_phase e) Predict) seg
     = flat_map (fun r => [mkEv Swap r; mkEv Predict r]) rs;
  ls_pre : filter (fun e => phase_eqb (ev_phase e) PreStep) seg = map (mkEv PreStep) rs;
  ls_outputs : filter (fun e => phase_eqb (ev_phase e) Output) seg = map (mkEv Output) rs;
  ls_dt : filter (fun e => phase_eqb (ev_phase e) AdaptDt) seg = if adapt then map (mkEv AdaptDt) rs else []
}.

(** start-up never solves, swaps states or moves the mesh *)
Definition startup_ok (l : list event) : Prop :=
  forall e, In e l -> ~ is_ph [Advance; Swap; Predict; PreStep; PostConverged; AdaptDt; MultiXfer false] e.

(** C05 *)
(** Realm::compute_adaptive_time_step reads, but does not change, the realms *)
Definition proposals_pure (E : Env) : Prop :=
  forall r r' t t' w, propose E r t (act E AdaptDt r' t' w) = propose E r t w.

(** C06 *)
(** the same program and input deck, with the realms in [sel] restarted from [db] *)
Definition resumed_env (E : Env) (db : restart_db) (sel : nat -> bool) : Env :=
  mkEnv (W E) (realms E) (act E) (input_time E)
        (fun r => if sel r then Some db else None) (propose E) (is_multi E) (mean_norm E).

(** [Sim w w']: the two worlds hold the same restorable field data. It is an assumption on
    the field/restart I/O layer that calls preserve it and that the time-step proposal depends
    only on that data and on the current step (src/Realm.C:1769-1785 reads get_time_step(),
    targetCourant_, maxCourant_). *)
Definition sim_ok (E : Env) (Sim : W E -> W E -> Prop) : Prop :=
  (forall p r t w w', Sim w w' -> Sim (act E p r t w) (act E p r t w')) /\
  (forall r t t' w w', Sim w w' -> Sim (act E AdaptDt r t w) (act E AdaptDt r t' w')) /\
  (forall r t t' w w', dtN t = dtN t' -> Sim w w' -> propose E r t w = propose E r t' w').

Definition record_of_line (l : log_line) : restart_db :=
  mkDb (l_time l) (Some (l_dtN l)) (Some (l_count l)).

(** C07 *)
Definition scheduled (freq start c : Z) : Prop := (start <= c)%Z /\ (freq | c - start)%Z.

(** C08 *)
(** state after j sweeps of an n-sweep loop, and the flag returned by the j-th (1-based) *)
Fixpoint sweep_state (S : Type) (sv : bool -> S -> S * bool) (n j : nat) (s : S) : S :=
  match j with O => s | Datatypes.S i => fst (sv (Nat.eqb (i + 1) n) (sweep_state S sv n i s)) end.
Definition sweep_flag (S : Type) (sv : bool -> S -> S * bool) (n j : nat) (s : S) : bool :=
  snd (sv (Nat.eqb j n) (sweep_state S sv n (j - 1) s)).
