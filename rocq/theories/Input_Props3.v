(** * C102, continued: thermal walls, initial conditions, solver blocks and property names *)
From Coq Require Import Reals List Bool String Arith Lia Lra ZArith Permutation.
From Verif Require Import Opt_Model Opt_Spec Opt_Props Input_Model Input_Spec Input_Props.
Import ListNotations.
Open Scope string_scope.

Section P.
Variables (as_d : yaml -> option R) (as_b : yaml -> option bool) (as_s : yaml -> option string) (as_i : yaml -> option Z).
Notation load_wall := (load_wall as_d as_b as_s as_i).

(** ** thermal walls of a solid *)
Lemma wall_on y u k c m dv f : load_wall y = Some u -> In (mkD k c m dv (Some f)) wall_doc -> k <> "emissivity" -> on u f = present k y.
Proof. intros H I N. pose proof (C102_wall_flags _ _ _ _ y u H _ I N) as F. unfold flag_ok in F. cbn in F. unfold on. rewrite F. now destruct (present k y). Qed.
Ltac find_doc := unfold wall_doc; repeat (first [left; reflexivity|right]).
Lemma wall_flags y u : load_wall y = Some u ->
  on u "tempSpec_" = present "temperature" y /\ on u "heatFluxSpec_" = present "heat_flux" y /\ on u "irradSpec_" = present "irradiation" y /\
  on u "refTempSpec_" = present "reference_temperature" y /\ on u "htcSpec_" = present "heat_transfer_coefficient" y /\ on u "robinParameterSpec_" = present "robin_coupling_parameter" y.
Proof. intros H. repeat split; (eapply wall_on; [exact H|find_doc|discriminate]). Qed.
Lemma wall_emiss y u : load_wall y = Some u -> flg u "emissSpec_" = if present "emissivity" y then Some true else None.
Proof.
  intros H. destruct (wall_parts _ _ _ _ _ _ H) as (u1 & H1 & H2 & _). rewrite (proj1 (proj2 (functions_spec _ _ _ _ _ H2))).
  pose proof (entries_flag _ _ _ _ _ _ _ _ (entf "emissivity" KNum "emissivity_" "emissSpec_") "emissSpec_" H1 ltac:(cbn; nodup) ltac:(cbn; repeat (first [left; reflexivity|right])) eq_refl) as F.
  cbn [entf e_test] in F. rewrite F. unfold present. destruct (yget "emissivity" y); reflexivity.
Qed.
Lemma wall_fn_type y u : load_wall y = Some u ->
  typ u "temperature" = match function_of y "temperature" with Some _ => Some FUNCTION_UD | None => if present "temperature" y then Some CONSTANT_UD else None end.
Proof. intros H. apply (C102_wall_quantities _ _ _ _ y u "temperature" H). cbn. auto 10. Qed.

(** What each combination of keywords does to a solid's wall, when no temperature function is named. *)
Theorem C102_thermal_wall_decision : forall y u, load_wall y = Some u -> function_of y "temperature" = None ->
  let T := present "temperature" y in let q := present "heat_flux" y in let irr := present "irradiation" y in let em := present "emissivity" y in
  let Tref := present "reference_temperature" y in let h := present "heat_transfer_coefficient" y in let rob := present "robin_coupling_parameter" y in
  (T = true -> heat_wall u = Does (Fixed false)) /\
  (T = false -> q = true -> rob = false -> heat_wall u = Does Flux) /\
  (T = false -> (q = false \/ rob = true) -> irr = true -> em = true -> heat_wall u = Does Irradiated) /\
  (T = false -> q = false -> irr = false -> rob = false -> h = true -> Tref = true -> heat_wall u = Does Convective) /\
  (T = false -> q = false -> irr = false -> rob = false -> h <> Tref -> heat_wall u = Rejected) /\
  (T = false -> irr = false -> rob = true -> heat_wall u = if (Tref && q)%bool then Does Robin else Rejected) /\
  (T = false -> q = false -> irr = false -> rob = false -> h = false -> Tref = false -> heat_wall u = Does Insulated).
Proof.
  intros y u H F. cbv zeta. destruct (wall_flags _ _ H) as (A1 & A2 & A3 & A4 & A5 & A6). unfold heat_wall. rewrite (wall_fn_type _ _ H), F, A1, A2, A3, A4, A5, A6, (wall_emiss _ _ H).
  destruct (present "temperature" y), (present "heat_flux" y), (present "irradiation" y), (present "emissivity" y), (present "reference_temperature" y),
    (present "heat_transfer_coefficient" y), (present "robin_coupling_parameter" y); cbn; repeat split; intros; try discriminate; try reflexivity;
    try (exfalso; intuition discriminate); intuition congruence.
Qed.
(** a temperature function: one of two names, else the run stops; it wins over a constant temperature *)
Theorem C102_thermal_wall_function : forall y u kvs v n, load_wall y = Some u -> yget "user_function_name" y = Some (YMap kvs) -> NoDup (map fst kvs) ->
  function_of y "temperature" = Some v -> as_s v = Some n ->
  heat_wall u = if (String.eqb n "steady_2d_thermal" || String.eqb n "steady_3d_thermal")%bool then Does (Fixed true) else Rejected.
Proof.
  intros y u kvs v n H Y ND F E. unfold heat_wall. rewrite (wall_fn_type _ _ H), F, orb_true_r.
  destruct (C102_wall_quantities _ _ _ _ y u "temperature" H) as (_ & _ & N); [cbn; auto 10|]. rewrite (N _ _ Y ND F), E. reflexivity.
Qed.
(** An irradiated wall without emissivity is meant to be rejected (753); the flag read there is never initialised
    (NaluParsing.h 210-226), so what happens is not determined by the file. *)
Theorem C102_irradiation_needs_emissivity_refuted : (exists v x, as_d (YScalar v) = Some x) ->
  ~ (forall y u, load_wall y = Some u -> present "irradiation" y = true -> present "emissivity" y = false -> present "temperature" y = false -> present "heat_flux" y = false ->
       function_of y "temperature" = None -> heat_wall u = Rejected).
Proof.
  intros (v & x & X) H. pose (y := YMap [("irradiation", YScalar v)]).
  destruct (load_wall y) as [u|] eqn:L.
  - specialize (H y u L eq_refl eq_refl eq_refl eq_refl eq_refl). subst y. lazy in L. rewrite X in L. cbn in L. injection L as <-. cbn in H. discriminate.
  - subst y. lazy in L. rewrite X in L. try discriminate.
Qed.
(** Every thermal datum a wall is given takes part in the decision: refuted.  A heat flux next to a temperature is dropped
    silently. *)
Theorem C102_every_thermal_datum_used_refuted : (exists v x, as_d (YScalar v) = Some x) ->
  ~ (forall y u, load_wall y = Some u -> present "heat_flux" y = true -> heat_wall u = Does Flux \/ heat_wall u = Does Robin \/ heat_wall u = Rejected).
Proof.
  intros (v & x & X) H. pose (y := YMap [("temperature", YScalar v); ("heat_flux", YScalar v)]).
  destruct (load_wall y) as [u|] eqn:L.
  - specialize (H y u L eq_refl). subst y. lazy in L. repeat (rewrite X in L; lazy in L). injection L as <-. cbn in H. intuition discriminate.
  - subst y. lazy in L. repeat (rewrite X in L; lazy in L). discriminate.
Qed.
End P.

(** ** the coefficient of a convective or Robin wall *)
Definition cht (w : wallkind) : Prop := w = Convective \/ w = Robin.
Lemma cht_fold (walls : list (string * wallkind)) w0 f (g : string) (ps : list string) : (forall p w, In (p, w) walls -> cht w -> w = w0) -> alpha_field w0 = Some f ->
  fold_left (fun a pw => match alpha_field (snd pw) with None => a | Some f => match a with None => Some (f, [fst pw]) | Some (g, ps) => Some (g, (ps ++ [fst pw])%list) end end) walls (Some (g, ps))
  = Some (g, (ps ++ map fst (filter (fun pw => match alpha_field (snd pw) with Some _ => true | None => false end) walls))%list).
Proof.
  revert ps. induction walls as [|[p w] l IH]; intros ps H F; cbn [fold_left filter map]; [now rewrite app_nil_r|]. cbn [snd fst]. destruct (alpha_field w) as [f'|].
  - rewrite IH; [|intros; apply (H p0); [now right|assumption]|assumption]. cbn. now rewrite <- app_assoc.
  - apply IH; [|assumption]. intros; apply (H p0); [now right|assumption].
Qed.
(** When the walls with such conditions are all convective or all Robin, each reads the coefficient it registered. *)
Theorem C102_coefficient_of_one_kind : forall walls w0, cht w0 -> (forall p w, In (p, w) walls -> cht w -> w = w0) ->
  forall p w, In (p, w) walls -> cht w -> field_read walls p = alpha_field w.
Proof.
  intros walls w0 C0 H p w I C. assert (exists f, alpha_field w0 = Some f) as (f & F) by (destruct C0 as [-> | ->]; cbn; eauto).
  assert (A : forall b, alpha_field b <> None -> cht b) by (intros [bf| | | | |]; cbn; unfold cht; auto; congruence).
  unfold field_read, register_cht.
  enough (G : exists ps, fold_left (fun a pw => match alpha_field (snd pw) with None => a | Some f => match a with None => Some (f, [fst pw]) | Some (g, ps) => Some (g, (ps ++ [fst pw])%list) end end) walls None = Some (f, ps) /\ In p ps).
  { destruct G as (ps & -> & Ip). rewrite (H p w I C), F. replace (existsb (String.eqb p) ps) with true; [reflexivity|]. symmetry. apply existsb_exists. exists p. split; [assumption|apply String.eqb_refl]. }
  induction walls as [|[a b] l IH]; [destruct I|]. cbn [fold_left snd fst]. destruct (alpha_field b) as [g|] eqn:B.
  - assert (b = w0) by (apply (H a b); [now left|apply A; congruence]). subst b. rewrite F in B. injection B as <-.
    rewrite (cht_fold l w0 f f [a]); [|intros; apply (H p0); [now right|assumption]|assumption]. eexists. split; [reflexivity|].
    destruct I as [E|I]; [left; congruence|]. right. apply in_map_iff. exists (p, w). split; [reflexivity|]. apply filter_In. split; [assumption|]. cbn. destruct C as [-> | ->]; reflexivity.
  - apply IH; [intros; apply (H p0); [now right|assumption]|]. destruct I as [E|I]; [|assumption]. injection E as -> ->. destruct C as [-> | ->]; discriminate.
Qed.
(** With a convective and a Robin wall in one solid the wall registered second reads the other's coefficient field, which
    does not exist on its part (HeatCondEquationSystem.C 944-960). *)
Theorem C102_coefficient_of_each_wall_refuted :
  ~ (forall walls p w, NoDup (map fst walls) -> In (p, w) walls -> cht w -> field_read walls p = alpha_field w).
Proof.
  intros H. specialize (H [("hot", Convective); ("coupled", Robin)] "coupled" Robin). discriminate H; [repeat constructor; cbn; intuition discriminate|right; now left|now right].
Qed.

(** ** initial values *)
Lemma write_eq {V} (f : string -> nat -> V) field sel v g n : write f field sel v g n = if (String.eqb g field && sel n)%bool then v else f g n.
Proof. reflexivity. Qed.
(** all (target, field, value) triples in the order in which they are written *)
Definition writes {V} (ics : list (list string * list (string * V))) : list (string * (string * V)) := flat_map (fun ic => flat_map (fun t => map (fun fv => (t, fv)) (snd ic)) (fst ic)) ics.
Lemma run_ics_writes {V} inpart (ics : list (list string * list (string * V))) f :
  run_ics inpart ics f = fold_left (fun f w => write f (fst (snd w)) (inpart (fst w)) (snd (snd w))) (writes ics) f.
Proof.
  assert (M : forall (t : string) (l : list (string * V)) f,
    fold_left (fun f w => write f (fst (snd w)) (inpart (fst w)) (snd (snd w))) (map (fun fv => (t, fv)) l) f
    = fold_left (fun f fv => write f (fst fv) (inpart t) (snd fv)) l f).
  { intros t l. induction l as [|fv l IH]; intro f0; [reflexivity|]. cbn [map fold_left fst snd]. apply IH. }
  assert (T : forall (l : list (string * V)) ts f,
    fold_left (fun f w => write f (fst (snd w)) (inpart (fst w)) (snd (snd w))) (flat_map (fun t => map (fun fv => (t, fv)) l) ts) f
    = fold_left (fun f t => fold_left (fun f fv => write f (fst fv) (inpart t) (snd fv)) l f) ts f).
  { intros l ts. induction ts as [|t ts IH]; intro f0; [reflexivity|]. cbn [flat_map fold_left]. rewrite fold_left_app, M. apply IH. }
  unfold run_ics, writes. revert f. induction ics as [|ic ics IH]; intro f; [reflexivity|]. cbn [flat_map fold_left]. rewrite fold_left_app, T. apply IH.
Qed.
Lemma run_writes {V} inpart (ics : list (list string * list (string * V))) f g n :
  run_ics inpart ics f g n = match last_of (filter (fun w => String.eqb g (fst (snd w)) && inpart (fst w) n)%bool (writes ics)) with Some w => snd (snd w) | None => f g n end.
Proof.
  assert (G : forall ws (f : string -> nat -> V), fold_left (fun f w => write f (fst (snd w)) (inpart (fst w)) (snd (snd w))) ws f g n
     = match last_of (filter (fun w => String.eqb g (fst (snd w)) && inpart (fst w) n)%bool ws) with Some w => snd (snd w) | None => f g n end).
  { clear. induction ws as [|w ws IH]; intro f; cbn [fold_left filter]; [reflexivity|]. rewrite IH. destruct (String.eqb g (fst (snd w)) && inpart (fst w) n)%bool eqn:E.
    - change (w :: filter (fun w => String.eqb g (fst (snd w)) && inpart (fst w) n)%bool ws) with ([w] ++ filter (fun w => String.eqb g (fst (snd w)) && inpart (fst w) n)%bool ws)%list.
      rewrite last_of_app. destruct (last_of _); [reflexivity|]. cbn. unfold write. now rewrite E.
    - destruct (last_of _); [reflexivity|]. unfold write. now rewrite E. }
  rewrite <- G. clear G. now rewrite run_ics_writes.
Qed.
(** The initial value of a field at a node is the one given last in the file for a target that contains the node ... *)
Theorem C102_last_initial_condition_wins : forall V inpart (l1 l2 : list (list string * list (string * V))) ts fs f g n v,
  In (g, v) fs -> NoDup (map fst fs) -> (exists t, In t ts /\ inpart t n = true) ->
  (forall ts' fs', In (ts', fs') l2 -> (forall t, In t ts' -> inpart t n = false) \/ ~ In g (map fst fs')) ->
  run_ics inpart (l1 ++ (ts, fs) :: l2) f g n = v.
Proof.
  intros V inpart l1 l2 ts fs f g n v I ND (t & It & Pt) H. rewrite run_writes. unfold writes. rewrite flat_map_app. cbn [flat_map fst snd]. rewrite !filter_app, !last_of_app.
  assert (Z : filter (fun w => String.eqb g (fst (snd w)) && inpart (fst w) n)%bool (flat_map (fun ic => flat_map (fun t0 => map (fun fv => (t0, fv)) (snd ic)) (fst ic)) l2) = []).
  { clear - H. induction l2 as [|[ts' fs'] l IH]; cbn; [reflexivity|]. rewrite filter_app. rewrite IH by (intros; apply (H ts'0); now right). rewrite app_nil_r.
    assert (N : forall w, In w (flat_map (fun t0 => map (fun fv : string * V => (t0, fv)) fs') ts') -> (String.eqb g (fst (snd w)) && inpart (fst w) n)%bool = false).
    { intros w Iw. apply in_flat_map in Iw. destruct Iw as (t0 & It & Im). apply in_map_iff in Im. destruct Im as (fv & <- & If). cbn.
      destruct (H ts' fs' (or_introl eq_refl)) as [A|A]; [rewrite (A t0 It); apply andb_false_r|]. destruct (String.eqb_spec g (fst fv)) as [->|]; [|reflexivity]. exfalso. apply A. now apply in_map. }
    induction (flat_map _ ts') as [|w ws IHw]; cbn; [reflexivity|]. rewrite (N w (or_introl eq_refl)). apply IHw. intros; apply N. now right. }
  rewrite Z. cbn [last_of].
  assert (S : forall ts, (exists t, In t ts /\ inpart t n = true) -> exists t', last_of (filter (fun w => String.eqb g (fst (snd w)) && inpart (fst w) n)%bool (flat_map (fun t0 => map (fun fv => (t0, fv)) fs) ts)) = Some (t', (g, v))).
  { clear - I ND. intro ts. assert (One : forall t, filter (fun w => String.eqb g (fst (snd w)) && inpart (fst w) n)%bool (map (fun fv => (t, fv)) fs) = if inpart t n then [(t, (g, v))] else []).
    { intro t. clear ts. induction fs as [|[a b] fs IH]; [destruct I|]. cbn [map filter fst snd]. cbn in ND. apply NoDup_cons_iff in ND. destruct ND as (N & ND). destruct I as [E|I].
      - injection E as -> ->. rewrite String.eqb_refl. cbn [andb]. assert (Z : filter (fun w => String.eqb g (fst (snd w)) && inpart (fst w) n)%bool (map (fun fv : string * V => (t, fv)) fs) = []).
        { clear - N. induction fs as [|[a b] fs IH]; [reflexivity|]. cbn [map filter fst snd]. destruct (String.eqb_spec g a) as [->|]; [exfalso; apply N; now left|]. cbn [andb]. apply IH. intro X. apply N. now right. }
        rewrite Z. now destruct (inpart t n).
      - destruct (String.eqb_spec g a) as [->|]; [exfalso; apply N; change a with (fst (a, v)); now apply in_map|]. cbn [andb]. now apply IH. }
    induction ts as [|t ts IH]; intros (t1 & It & Pt); [destruct It|]. cbn [flat_map]. rewrite filter_app, last_of_app, One.
    destruct (last_of (filter _ (flat_map _ ts))) as [w|] eqn:L.
    - destruct (existsb (fun t => inpart t n) ts) eqn:E; [apply existsb_exists in E; destruct (IH E) as (t' & E'); exists t'; congruence|].
      exfalso. assert (Z : filter (fun w => String.eqb g (fst (snd w)) && inpart (fst w) n)%bool (flat_map (fun t0 => map (fun fv => (t0, fv)) fs) ts) = []).
      { clear - E One. induction ts as [|t ts IH]; [reflexivity|]. cbn in E. apply orb_false_iff in E. destruct E as (E1 & E2). cbn [flat_map]. rewrite filter_app, One, E1, (IH E2). reflexivity. }
      rewrite Z in L. discriminate.
    - destruct It as [->|It]; [rewrite Pt; exists t1; reflexivity|]. destruct IH as (t' & E'); [eauto|congruence]. }
  destruct (S ts (ex_intro _ t (conj It Pt))) as (t' & ->). reflexivity.
Qed.
(** ... and a node of no target of the field keeps the value it had. *)
Theorem C102_untargeted_nodes_keep_their_value : forall V inpart (ics : list (list string * list (string * V))) f g n,
  (forall ts fs t, In (ts, fs) ics -> In t ts -> In g (map fst fs) -> inpart t n = false) -> run_ics inpart ics f g n = f g n.
Proof.
  intros V inpart ics f g n H. rewrite run_writes. destruct (last_of _) as [w|] eqn:L; [|reflexivity]. exfalso.
  assert (I : In w (filter (fun w => String.eqb g (fst (snd w)) && inpart (fst w) n)%bool (writes ics))).
  { revert L. generalize (filter (fun w => String.eqb g (fst (snd w)) && inpart (fst w) n)%bool (writes ics)). clear. induction l as [|a [|b l] IH]; [discriminate|intros [= <-]; now left|intros E; right; now apply IH]. }
  apply filter_In in I. destruct I as (I & E). apply andb_true_iff in E. destruct E as (E1 & E2). apply String.eqb_eq in E1. unfold writes in I. apply in_flat_map in I. destruct I as ([ts fs] & I1 & I2).
  apply in_flat_map in I2. destruct I2 as (t & I2 & I3). apply in_map_iff in I3. destruct I3 as (fv & <- & I4). cbn in *. rewrite (H ts fs t I1 I2) in E2; [discriminate|]. rewrite E1. now apply in_map.
Qed.

(** ** solver blocks *)
(** An equation gets the last block with the name it asks for; an unknown type stops the run. *)
Theorem C102_solver_of_equation : forall C (l : list (string * string * C)) m, load_solvers l = Some m ->
  (forall ty nm c, In (ty, nm, c) l -> ty = "tpetra") /\
  forall spec eq nm, spec eq = Some nm -> solver_of spec m eq = option_map snd (last_of (filter (fun x => String.eqb (snd (fst x)) nm) l)).
Proof.
  intros C l m. unfold load_solvers. intros H.
  assert (G : forall m0, fold_left (fun m x => match m with None => None | Some m => let '(ty, nm, c) := x in if String.eqb ty "tpetra" then Some (upd m nm c) else None end) l (Some m0) = Some m ->
     (forall ty nm c, In (ty, nm, c) l -> ty = "tpetra") /\ forall nm, m nm = match last_of (filter (fun x => String.eqb (snd (fst x)) nm) l) with Some x => Some (snd x) | None => m0 nm end).
  { clear H. induction l as [|[[ty nm] c] l IH]; intros m0 H.
    - cbn in H. injection H as <-. split; [intros ? ? ? []|reflexivity].
    - cbn [fold_left] in H. destruct (String.eqb_spec ty "tpetra") as [->|N].
      + destruct (IH _ H) as (A & B). split; [intros ty' nm' c' [E|I]; [congruence|eauto]|]. intro k. rewrite B. cbn [filter fst snd]. destruct (String.eqb_spec nm k) as [->|Nk].
        * change (("tpetra", k, c) :: filter (fun x : string * string * C => String.eqb (snd (fst x)) k) l) with ([("tpetra", k, c)] ++ filter (fun x : string * string * C => String.eqb (snd (fst x)) k) l)%list.
          rewrite last_of_app. destruct (last_of _); [reflexivity|]. cbn. apply upd_same.
        * destruct (last_of _); [reflexivity|]. now apply upd_other; auto.
      + exfalso. clear - H. induction l as [|x l IH]; cbn in H; [discriminate|auto]. }
  destruct (G _ H) as (A & B). split; [exact A|]. intros spec eq nm E. unfold solver_of. rewrite E, B. destruct (last_of _); reflexivity.
Qed.
(** ** material properties by name *)
Lemma names_nodup : NoDup PropertyIdentifierNames.
Proof. unfold PropertyIdentifierNames. nodup. Qed.
Theorem C102_property_of_name : forall D (l : list (string * D)) m, load_props l = Some m ->
  (forall nm d, In (nm, d) l -> In nm PropertyIdentifierNames) /\
  forall k nm, nth_error PropertyIdentifierNames k = Some nm -> m k = option_map snd (last_of (filter (fun x => String.eqb (fst x) nm) l)).
Proof.
  intros D l m. unfold load_props. intros H.
  assert (G : forall m0, fold_left (fun m x => match m with None => None | Some m => match index_of (String.eqb (fst x)) PropertyIdentifierNames with
     | Some k => Some (fun j => if Nat.eqb j k then Some (snd x) else m j) | None => None end end) l (Some m0) = Some m ->
     (forall nm d, In (nm, d) l -> In nm PropertyIdentifierNames) /\
     forall k nm, nth_error PropertyIdentifierNames k = Some nm -> m k = match last_of (filter (fun x => String.eqb (fst x) nm) l) with Some x => Some (snd x) | None => m0 k end).
  { clear H. induction l as [|[a d] l IH]; intros m0 H.
    - cbn in H. injection H as <-. split; [intros ? ? []|reflexivity].
    - cbn [fold_left fst snd] in H. destruct (index_of (String.eqb a) PropertyIdentifierNames) as [j|] eqn:J.
      + destruct (index_of_nth _ _ _ J) as (b & X & Y). apply String.eqb_eq in Y. subst b. destruct (IH _ H) as (A & B). split; [intros nm' d' [E|I]; [injection E as <- <-; eapply nth_error_In; eassumption|eauto]|].
        intros k nm N. rewrite (B k nm N). cbn [filter fst]. destruct (String.eqb_spec a nm) as [->|Nk].
        * change ((nm, d) :: filter (fun x : string * D => String.eqb (fst x) nm) l) with ([(nm, d)] ++ filter (fun x : string * D => String.eqb (fst x) nm) l)%list.
          rewrite last_of_app. destruct (last_of _); [reflexivity|]. cbn [last_of snd].
          assert (k = j) by (apply (proj1 (NoDup_nth_error _) names_nodup); [apply nth_error_Some; congruence|congruence]). subst k. now rewrite Nat.eqb_refl.
        * destruct (last_of _); [reflexivity|]. destruct (Nat.eqb_spec k j) as [->|]; [congruence|reflexivity].
      + exfalso. clear - H. induction l as [|x l IH]; cbn in H; [discriminate|auto]. }
  destruct (G _ H) as (A & B). split; [exact A|]. intros k nm N. rewrite (B k nm N). destruct (last_of _); reflexivity.
Qed.

(** ** a concrete file *)
Definition ex_d (y : yaml) : option R := match y with YScalar "1" => Some 1%R | YScalar "300" => Some 300%R | _ => None end.
Definition ex_b (y : yaml) : option bool := match y with YScalar "yes" => Some true | YScalar "no" => Some false | _ => None end.
Definition ex_s (y : yaml) : option string := match y with YScalar s => Some s | _ => None end.
Definition ex_i (_ : yaml) : option Z := None.
Definition ex_wall : yaml := YMap [("wall_boundary_condition", YScalar "bc_left"); ("target_name", YScalar "surface_1");
  ("wall_user_data", YMap [("reference_temperature", YScalar "300"); ("heat_transfer_coefficient", YScalar "1"); ("interface", YScalar "yes");
     ("user_function_name", YMap [("velocity", YScalar "wind_energy")])])].
Example C102_case : exists b, load_bc ex_d ex_b ex_s ex_i ex_wall = Some b /\ b_kind b = Wall /\ b_target b = T1 "surface_1" /\ heat_wall (b_data b) = Does Convective /\
  mem (b_data b) "referenceTemperature_" = Some (VR 300) /\ mem (b_data b) "isInterface_" = Some (VB true) /\ mem (b_data b) "environmentalT_" = Some (VR 298) /\
  typ (b_data b) "velocity" = Some FUNCTION_UD /\ fn (b_data b) "velocity" = Some "wind_energy" /\
  (exists v x, ex_d (YScalar v) = Some x /\ x <> 0%R).
Proof. eexists. split; [reflexivity|]. repeat split; try reflexivity. exists "1", 1%R. split; [reflexivity|lra]. Qed.
