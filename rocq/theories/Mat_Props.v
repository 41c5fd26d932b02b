(** C108: the material blocks of the input decide what fills every property. *)
From Coq Require Import Reals List Bool String Lra Lia.
From Coquelicot Require Import Coquelicot.
From Verif Require Import Edge_Model Prop_Model Prop_Props Mat_Model.
Import ListNotations.
Open Scope R_scope.

(** * What the input asks for, in its own words *)
Definition given (d : R) (o : option R) : R := match o with Some v => v | None => d end.
Definition T_of (b : block) := given 298.15 (b_T b).
Definition p_of (b : block) := given 101325 (b_p b).
Definition R_of (b : block) := given 8314.4621 (b_R b).
Definition mixture (sp : list (R * R)) (Y : nat -> R) (M : R) : Prop := M * sumn (List.length sp) (fun k => Y k / fst (nth k sp (0,0))) = 1.
Definition Yused (fl : flags) (b : block) (n : node) : nat -> R := if uniform fl then (fun k => snd (nth k (b_species b) (0,0))) else n_Y n.
Definition Tused (fl : flags) (b : block) (n : node) : R := if isothermal fl then T_of b else n_T n.
(** transported pressure only for a compressible flow whose temperature is solved for *)
Definition pused (fl : flags) (b : block) (n : node) : R := if (acoustic fl && negb (isothermal fl))%bool then n_p n else p_of b.

Inductive asked (tab : string -> node -> R) (bs : list block) (fl : flags) (b : block) (n : node) : fld -> R -> Prop :=
| A_const p v cpk hfk : b_spec b p = Some (SConst v cpk hfk) -> ~ (p = 2%nat /\ needsH fl = true /\ cpk <> []) -> asked tab bs fl b n (F p) v
| A_species v cpk hfk x : b_spec b 2%nat = Some (SConst v cpk hfk) -> needsH fl = true -> uniform fl = false ->
    x = sumn (List.length cpk) (fun k => n_Y n k * nth k cpk 0) -> asked tab bs fl b n (F 2) x
| A_gamma_cp g cpk hfk M x : b_spec b 10%nat = Some (SConst g cpk hfk) -> gasDyn fl = true -> acoustic fl = true ->
    mixture (b_species b) (fun k => snd (nth k (b_species b) (0,0))) M -> x * (g - 1) * M = g * R_of b -> asked tab bs fl b n (F 2) x
| A_gamma_cv g cpk hfk M x : b_spec b 10%nat = Some (SConst g cpk hfk) -> gasDyn fl = true -> acoustic fl = true ->
    mixture (b_species b) (fun k => snd (nth k (b_species b) (0,0))) M -> x * (g - 1) * M = R_of b -> asked tab bs fl b n FCv x
| A_density_mix a c x : b_spec b 0%nat = Some (SMix a c) -> x * (n_Z n / a + (1 - n_Z n) / c) = 1 -> asked tab bs fl b n (F 0) x
| A_mix p a c x : p <> 0%nat -> b_spec b p = Some (SMix a c) -> x = n_Z n * a + (1 - n_Z n) * c -> asked tab bs fl b n (F p) x
| A_vof p a c x : b_spec b p = Some (SVof a c) -> x = n_vof n * a + (1 - n_vof n) * c -> asked tab bs fl b n (F p) x
| A_visc poly low high x : b_spec b 1%nat = Some (SPoly poly low high) ->
    x = sutherland_mu (List.length (b_species b)) (fun k => fst (nth k (b_species b) (0,0))) (Yused fl b n) poly (Tused fl b n) -> asked tab bs fl b n (F 1) x
| A_cp poly low high x : b_spec b 2%nat = Some (SPoly poly low high) ->
    x = specific_heat (List.length (b_species b)) (Yused fl b n) (fun k => fst (nth k (b_species b) (0,0))) low high (R_of b) (n_T n) -> asked tab bs fl b n (F 2) x
| A_ideal M x : b_spec b 0%nat = Some SIdeal -> gasDyn fl = false -> (acoustic fl = true -> uniform fl = true) ->
    mixture (b_species b) (Yused fl b n) M -> x * R_of b * Tused fl b n = pused fl b n * M -> asked tab bs fl b n (F 0) x
| A_geom p x : b_spec b p = Some SGeom -> x * n_vol n = n_scale n -> asked tab bs fl b n (F p) x
| A_table p b' : b_spec b p = Some STable -> In b' bs -> asked tab bs fl b n (F p) (tab (b_table b') n)
| A_water p nm x : b_spec b p = Some (SGeneric nm) ->
    (nm = "water_viscosity_T"%string /\ x = water_mu (n_T n) \/ nm = "water_density_T"%string /\ x = water_rho (n_T n) \/
     nm = "water_specific_heat_T"%string /\ x = water_cp (n_T n) \/ nm = "water_thermal_conductivity_T"%string /\ x = water_k (n_T n)) -> asked tab bs fl b n (F p) x.
(** a node at which the divisions make sense for this block *)
Definition sane (fl : flags) (b : block) (n : node) : Prop :=
  n_vol n <> 0 /\ R_of b <> 0 /\ n_T n <> 0 /\ T_of b <> 0 /\
  (forall a c, b_spec b 0%nat = Some (SMix a c) -> n_Z n / a + (1 - n_Z n) / c <> 0) /\
  (forall g cpk hfk, b_spec b 10%nat = Some (SConst g cpk hfk) -> g <> 1) /\
  (b_spec b 0%nat = Some SIdeal -> sumn (List.length (b_species b)) (fun k => Yused fl b n k / fst (nth k (b_species b) (0,0))) <> 0) /\
  (forall g cpk hfk, b_spec b 10%nat = Some (SConst g cpk hfk) -> sumn (List.length (b_species b)) (fun k => snd (nth k (b_species b) (0,0)) / fst (nth k (b_species b) (0,0))) <> 0).
(** each reference constant is given by all blocks or by none *)
Definition alike (bs : list block) : Prop :=
  (forall b b', In b bs -> In b' bs -> (b_T b = None <-> b_T b' = None)) /\
  (forall b b', In b bs -> In b' bs -> (b_p b = None <-> b_p b' = None)) /\
  (forall b b', In b bs -> In b' bs -> (b_R b = None <-> b_R b' = None)).

(** * The walk over blocks, targets and properties *)
Definition still (bs : list block) (r : refs) : Prop :=
  ((forall b, In b bs -> b_T b = None) -> tRef r = 298.15) /\ ((forall b, In b bs -> b_p b = None) -> pRef r = 101325) /\ ((forall b, In b bs -> b_R b = None) -> Ru r = 8314.4621).
Definition okfile (bs : list block) (f : option string) : Prop := forall x, f = Some x -> exists b, In b bs /\ x = b_table b.

Lemma getT bs b r : alike bs -> In b bs -> still bs r -> still bs (get_T b r) /\ tRef (get_T b r) = T_of b /\ pRef (get_T b r) = pRef r /\ Ru (get_T b r) = Ru r.
Proof.
  intros (A & _) I (S1 & S2 & S3). unfold get_T, T_of. destruct (b_T b) eqn:E; cbn.
  - split; [|auto]. split; [|split; assumption]. intros N. rewrite (N b I) in E. discriminate.
  - split; [split; [assumption|split; assumption]|]. split; [|auto]. apply S1. intros b' I'. apply (A b b' I I'). exact E.
Qed.
Lemma getp bs b r : alike bs -> In b bs -> still bs r -> still bs (get_p b r) /\ pRef (get_p b r) = p_of b /\ tRef (get_p b r) = tRef r /\ Ru (get_p b r) = Ru r.
Proof.
  intros (_ & A & _) I (S1 & S2 & S3). unfold get_p, p_of. destruct (b_p b) eqn:E; cbn.
  - split; [|auto]. split; [assumption|split; [|assumption]]. intros N. rewrite (N b I) in E. discriminate.
  - split; [split; [assumption|split; assumption]|]. split; [|auto]. apply S2. intros b' I'. apply (A b b' I I'). exact E.
Qed.
Lemma getR bs b r : alike bs -> In b bs -> still bs r -> still bs (get_R b r) /\ Ru (get_R b r) = R_of b /\ tRef (get_R b r) = tRef r /\ pRef (get_R b r) = pRef r.
Proof.
  intros (_ & _ & A) I (S1 & S2 & S3). unfold get_R, R_of. destruct (b_R b) eqn:E; cbn.
  - split; [|auto]. split; [assumption|split; [assumption|]]. intros N. rewrite (N b I) in E. discriminate.
  - split; [split; [assumption|split; assumption]|]. split; [|auto]. apply S3. intros b' I'. apply (A b b' I I'). exact E.
Qed.
(** what one step adds *)
Definition hpair (e : evaluator) (h : enthalpy_of) : Prop :=
  match h with HConst cp _ => e = EConst cp | HCpk cpk _ _ => e = ECpk cpk | HPoly ref lo hi r sp => e = ECpPoly ref lo hi r sp | HWater => e = EWater "water_specific_heat_T" end.
Definition silent (fl : flags) (b : block) (p : nat) : Prop :=
  (p = 5%nat /\ exists x y z, b_spec b 5%nat = Some (SPoly x y z)) \/ (p = 0%nat /\ b_spec b 0%nat = Some SIdeal /\ gasDyn fl = true).
Definition added (tab : string -> node -> R) (bs : list block) (fl : flags) (b : block) (t : string) (p : nat) (s s' : state) : Prop :=
  still bs (s_refs s') /\ okfile bs (s_file s') /\
  exists l h, s_regs s' = s_regs s ++ map (fun fe => (t, fst fe, snd fe)) l /\ s_h s' = s_h s ++ map (fun x => (t, x)) h /\
    (forall f e, In (f, e) l -> forall n, sane fl b n -> asked tab bs fl b n f (value tab e n)) /\
    (silent fl b p \/ exists e, In (F p, e) l) /\ b_spec b p <> None /\
    (forall x, In x h -> exists e, (In (F 2, e) l \/ (p <> 2%nat /\ b_spec b p = Some (SGeneric "water_specific_heat_T"))) /\ hpair e x) /\
    (forall cp t0, In (HConst cp t0) h -> t0 = T_of b) /\ (forall cpk hfk t0, In (HCpk cpk hfk t0) h -> t0 = T_of b).
Lemma mixture_mix sp Y : sumn (List.length sp) (fun k => Y k / fst (nth k sp (0,0))) <> 0 -> mixture sp Y (mixture_mw (List.length sp) Y (mw_ sp)).
Proof. intros H. unfold mixture, mixture_mw, mw_. field. exact H. Qed.
Lemma added_none tab bs fl b t p s r f l : still bs r -> okfile bs f ->
  (forall g e, In (g, e) l -> forall n, sane fl b n -> asked tab bs fl b n g (value tab e n)) -> (silent fl b p \/ exists e, In (F p, e) l) -> b_spec b p <> None ->
  added tab bs fl b t p s (put t r f l None s).
Proof.
  intros S O V C N. split; [exact S|]. split; [exact O|]. exists l, []. cbn. rewrite app_nil_r.
  split; [reflexivity|]. split; [reflexivity|]. split; [exact V|]. split; [exact C|]. split; [exact N|]. split; [intros x []|]. split; intros ? ?; [intros []|intros ? []].
Qed.
Lemma added_some tab bs fl b t p s r f l h : still bs r -> okfile bs f ->
  (forall g e, In (g, e) l -> forall n, sane fl b n -> asked tab bs fl b n g (value tab e n)) -> (silent fl b p \/ exists e, In (F p, e) l) -> b_spec b p <> None ->
  (exists e, (In (F 2, e) l \/ (p <> 2%nat /\ b_spec b p = Some (SGeneric "water_specific_heat_T"))) /\ hpair e h) ->
  (forall cp t0, h = HConst cp t0 -> t0 = T_of b) -> (forall cpk hfk t0, h = HCpk cpk hfk t0 -> t0 = T_of b) ->
  added tab bs fl b t p s (put t r f l (Some h) s).
Proof.
  intros S O V C N H K1 K2. split; [exact S|]. split; [exact O|]. exists l, [h].
  split; [reflexivity|]. split; [reflexivity|]. split; [exact V|]. split; [exact C|]. split; [exact N|]. split; [intros x [<-|[]]; exact H|].
  split; [intros cp t0 [X|[]]; eapply K1; exact X|intros cpk hfk t0 [X|[]]; eapply K2; exact X].
Qed.
Lemma one (Q : fld -> evaluator -> Prop) g e : Q g e -> forall g' e', In (g', e') [(g, e)] -> Q g' e'.
Proof. intros H g' e' [X|[]]. inversion X; subst. exact H. Qed.
Ltac got := right; eexists; left; reflexivity.
Ltac fin E := first [got|rewrite E; discriminate|intros; discriminate].
Lemma step_adds tab bs fl b t p s s' : alike bs -> In b bs -> still bs (s_refs s) -> okfile bs (s_file s) -> step fl b t s p = Some s' -> added tab bs fl b t p s s'.
Proof.
  intros AL I ST OF. unfold step. destruct (b_spec b p) as [sp|] eqn:E; [|discriminate].
  pose proof (getT bs b (s_refs s) AL I ST) as (T1 & T2 & T3 & T4).
  destruct sp as [v cpk hfk|a c|a c|poly low high| | | |nm].
  - destruct (Nat.eqb p 2 && needsH fl)%bool eqn:P2.
    + apply andb_prop in P2. destruct P2 as [P2 NH]. apply PeanoNat.Nat.eqb_eq in P2. subst p.
      destruct (is_nil cpk) eqn:N; cbn [negb].
      * destruct cpk; [|discriminate]. intros H; inversion H; subst; clear H. apply added_some; [exact T1|exact OF| | | | | |]; try (fin E).
        -- apply (one (fun g e => forall n, sane fl b n -> asked tab bs fl b n g (value tab e n))). intros n _. eapply A_const; [exact E|]. intros (_ & _ & X); congruence.
        -- eexists; split; [left; left; reflexivity|reflexivity].
        -- intros cp t0 X; inversion X; subst. exact T2.
      * destruct (uniform fl) eqn:U; [discriminate|]. intros H; inversion H; subst; clear H. apply added_some; [exact T1|exact OF| | | | | |]; try (fin E).
        -- apply (one (fun g e => forall n, sane fl b n -> asked tab bs fl b n g (value tab e n))). intros n _. eapply A_species; eauto.
        -- eexists; split; [left; left; reflexivity|reflexivity].
        -- intros cp hf t0 X; inversion X; subst. exact T2.
    + destruct (Nat.eqb p 10) eqn:P10.
      * apply PeanoNat.Nat.eqb_eq in P10; subst p. destruct (gasDyn fl) eqn:G; [|discriminate]. destruct (is_nil cpk) eqn:N; cbn [negb]; [|discriminate]. destruct (acoustic fl) eqn:AC; [|discriminate].
        cbn [negb]. intros H; inversion H; subst; clear H.
        pose proof (getR bs b _ AL I T1) as (R1 & R2 & R3 & R4).
        apply added_some; [exact R1|exact OF| | | | | |]; try (fin E).
        -- intros f e L n (_ & HR & _ & _ & _ & G1 & _ & HM). specialize (HM _ _ _ E). specialize (G1 _ _ _ E). pose proof (mixture_mix _ (fun k => snd (nth k (b_species b) (0,0))) HM) as M.
           assert (M0 : mixture_mw (List.length (b_species b)) (fun k => snd (nth k (b_species b) (0,0))) (mw_ (b_species b)) <> 0).
           { intros Z. unfold mixture in M. rewrite Z in M. lra. }
           change (yref (b_species b)) with (fun k => snd (nth k (b_species b) (0,0))) in L.
           set (MM := mixture_mw _ _ _) in *. clearbody MM. cbn in L. destruct L as [L|[L|[L|[]]]]; inversion L; subst; clear L; cbn [value].
           ++ eapply A_const; [exact E|]. intros (X & _); discriminate.
           ++ eapply A_gamma_cp; [exact E|exact G|exact AC|exact M|]. rewrite R2. field. split; first [exact M0|lra].
           ++ eapply A_gamma_cv; [exact E|exact G|exact AC|exact M|]. rewrite R2. field. split; first [exact M0|lra].
        -- eexists; split; [left; right; left; reflexivity|reflexivity].
        -- intros cp t0 X; inversion X; subst. rewrite R3. exact T2.
      * intros H; inversion H; subst; clear H. apply added_none; [exact ST|exact OF| | |]; try (fin E).
        apply (one (fun g e => forall n, sane fl b n -> asked tab bs fl b n g (value tab e n))). intros n _. eapply A_const; [exact E|]. intros (X & Y & _). subst. rewrite Y in P2. discriminate.
  - intros H; inversion H; subst; clear H. apply added_none; [exact ST|exact OF| | |]; try (fin E).
    apply (one (fun g e => forall n, sane fl b n -> asked tab bs fl b n g (value tab e n))). intros n (_ & _ & _ & _ & HZ & _). destruct (Nat.eqb p 0) eqn:P.
    + apply PeanoNat.Nat.eqb_eq in P; subst. eapply A_density_mix; [exact E|]. cbn. unfold inverse_prop. specialize (HZ _ _ E). set (d := n_Z n / a + (1 - n_Z n) / c) in *. field. exact HZ.
    + apply PeanoNat.Nat.eqb_neq in P. eapply A_mix; [exact P|exact E|reflexivity].
  - intros H; inversion H; subst; clear H. apply added_none; [exact ST|exact OF| | |]; try (fin E).
    apply (one (fun g e => forall n, sane fl b n -> asked tab bs fl b n g (value tab e n))). intros n _. eapply A_vof; [exact E|reflexivity].
  - destruct p as [|[|[|[|[|[|p]]]]]]; try discriminate; intros H; inversion H; subst; clear H.
    + apply added_none; [destruct (isothermal fl); [exact T1|exact ST]|exact OF| | |]; try (fin E).
      apply (one (fun g e => forall n, sane fl b n -> asked tab bs fl b n g (value tab e n))). intros n _. eapply A_visc; [exact E|]. cbn [value].
      unfold Yused, Tused, mw_, yref. destruct (isothermal fl); [rewrite T2|]; destruct (uniform fl); reflexivity.
    + pose proof (getR bs b _ AL I ST) as (R1 & R2 & R3 & R4). apply added_some; [exact R1|exact OF| | | | | |]; try (fin E).
      * apply (one (fun g e => forall n, sane fl b n -> asked tab bs fl b n g (value tab e n))). intros n _. eapply A_cp; [exact E|]. cbn [value]. rewrite R2. unfold Yused, mw_, yref. destruct (uniform fl); reflexivity.
      * eexists; split; [left; left; reflexivity|reflexivity].
    + apply added_none; [exact ST|exact OF| | |]; [intros ? ? []| |rewrite E; discriminate]. left; left. split; [reflexivity|]. eauto.
  - destruct (Nat.eqb p 0) eqn:P; [|discriminate]. apply PeanoNat.Nat.eqb_eq in P; subst p.
    pose proof (getR bs b _ AL I ST) as (R1 & R2 & R3 & R4).
    pose proof (getp bs b _ AL I R1) as (P1 & P2 & P3 & P4).
    pose proof (getT bs b _ AL I P1) as (Q1 & Q2 & Q3 & Q4).
    assert (GO : forall r e, still bs r -> (gasDyn fl = false -> forall n, sane fl b n -> asked tab bs fl b n (F 0) (value tab e n)) ->
      Some (put t r (s_file s) (if gasDyn fl then [] else [(F 0, e)]) None s) = Some s' -> added tab bs fl b t 0 s s').
    { intros r e S V H; inversion H; subst; clear H. apply added_none; [exact S|exact OF| | |rewrite E; discriminate].
      - destruct (gasDyn fl) eqn:G; intros f e' L; cbn in L; [destruct L|]. destruct L as [L|[]]; inversion L; subst. apply V; reflexivity.
      - destruct (gasDyn fl) eqn:G; [left; right; auto|got]. }
    assert (VA : forall n x, sane fl b n -> gasDyn fl = false -> (acoustic fl = true -> uniform fl = true) ->
       x = pused fl b n * mixture_mw (List.length (b_species b)) (Yused fl b n) (mw_ (b_species b)) / R_of b / Tused fl b n -> asked tab bs fl b n (F 0) x).
    { intros n x (_ & HR & HT & HT2 & _ & _ & HY & _) G AU X. specialize (HY E). pose proof (mixture_mix _ _ HY) as M.
      eapply A_ideal; [exact E|exact G|exact AU|exact M|]. rewrite X. field. split; [exact HR|unfold Tused; destruct (isothermal fl); assumption]. }
    destruct (uniform fl) eqn:U; destruct (isothermal fl) eqn:IS; [|destruct (acoustic fl) eqn:AC|destruct (acoustic fl) eqn:AC; [discriminate|]|destruct (acoustic fl) eqn:AC; [discriminate|]];
      apply GO; try assumption; intros G n SN; apply VA; try assumption; try congruence; try (intros; reflexivity); cbn [value];
      unfold ideal_PrefTrefYkref, ideal_PTYkref, ideal_PrefTYkref, ideal_PrefTrefYk, ideal_PrefTYk, Yused, Tused, pused; rewrite ?U, ?IS, ?AC; cbn [andb negb]; rewrite ?andb_false_r; rewrite ?Q2, ?Q3, ?Q4, ?P2, ?P4, ?R2; reflexivity.
  - intros H; inversion H; subst; clear H. apply added_none; [exact ST|exact OF| | |]; try (fin E).
    apply (one (fun g e => forall n, sane fl b n -> asked tab bs fl b n g (value tab e n))). intros n (V & _). eapply A_geom; [exact E|]. cbn. field. exact V.
  - intros H; inversion H; subst; clear H.
    assert (K : exists b', In b' bs /\ match s_file s with Some x => x | None => b_table b end = b_table b').
    { destruct (s_file s) eqn:Q; [apply OF; reflexivity|]. exists b; auto. }
    apply added_none; [exact ST|intros x X; inversion X; subst; exact K| | |]; try (fin E).
    apply (one (fun g e => forall n, sane fl b n -> asked tab bs fl b n g (value tab e n))). intros n _. destruct K as (b' & I' & K). cbn [value]. rewrite K. apply A_table; [exact E|exact I'].
  - destruct (existsb (String.eqb nm) water_names) eqn:W; [|discriminate]. intros H; inversion H; subst; clear H.
    assert (V : forall g e, In (g, e) [(F p, EWater nm)] -> forall n, sane fl b n -> asked tab bs fl b n g (value tab e n)).
    { apply (one (fun g e => forall n, sane fl b n -> asked tab bs fl b n g (value tab e n))). intros n _. eapply A_water; [exact E|]. apply existsb_exists in W. destruct W as (w & W & Q). apply String.eqb_eq in Q. subst w. cbn in W.
      destruct W as [W|[W|[W|[W|[]]]]]; subst nm; cbn; tauto. }
    destruct (String.eqb nm "water_specific_heat_T") eqn:Q.
    + apply String.eqb_eq in Q; subst nm. apply added_some; [exact ST|exact OF|exact V| | | | |]; try (fin E).
      eexists; split; [|reflexivity]. destruct (PeanoNat.Nat.eq_dec p 2) as [->|D]; [left; left; reflexivity|right; auto].
    + apply added_none; [exact ST|exact OF|exact V| |]; fin E.
Qed.

(** * From one step to the whole setup *)
Definition recorded (tab : string -> node -> R) (bs : list block) (fl : flags) (b : block) (t : string) (p : nat) (s : state) : Prop :=
  b_spec b p <> None /\ (silent fl b p \/ exists e, In (t, F p, e) (s_regs s) /\ forall n, sane fl b n -> asked tab bs fl b n (F p) (value tab e n)).
Definition sound (tab : string -> node -> R) (pm : list nat) (bs : list block) (fl : flags) (s : state) : Prop :=
  still bs (s_refs s) /\ okfile bs (s_file s) /\
  (forall t f e, In (t, f, e) (s_regs s) -> exists b, In b bs /\ In t (b_targets b) /\ forall n, sane fl b n -> asked tab bs fl b n f (value tab e n)) /\
  (forall t h, In (t, h) (s_h s) -> exists b e, In b bs /\ In t (b_targets b) /\ hpair e h /\
     (In (t, F 2, e) (s_regs s) \/ exists p, p <> 2%nat /\ In p pm /\ b_spec b p = Some (SGeneric "water_specific_heat_T")) /\
     (forall cp t0, h = HConst cp t0 -> t0 = T_of b) /\ (forall cpk hfk t0, h = HCpk cpk hfk t0 -> t0 = T_of b)).
Definition grows (s s' : state) : Prop := forall x, In x (s_regs s) -> In x (s_regs s').
Lemma step_sound tab pm bs fl b t p s s' : alike bs -> In b bs -> In t (b_targets b) -> In p pm -> sound tab pm bs fl s -> step fl b t s p = Some s' ->
  sound tab pm bs fl s' /\ grows s s' /\ recorded tab bs fl b t p s'.
Proof.
  intros AL I IT IP (ST & OF & RG & HH) Q. destruct (step_adds tab bs fl b t p s s' AL I ST OF Q) as (S1 & O1 & l & h & E1 & E2 & V & C & N & HP & K1 & K2).
  assert (GR : grows s s') by (intros x X; rewrite E1; apply in_or_app; left; exact X).
  assert (NEW : forall f e, In (f, e) l -> In (t, f, e) (s_regs s')).
  { intros f e L. rewrite E1. apply in_or_app; right. apply in_map_iff. exists (f, e). auto. }
  split; [|split; [exact GR|]].
  - split; [exact S1|]. split; [exact O1|]. split.
    + intros t' f e X. rewrite E1 in X. apply in_app_or in X. destruct X as [X|X]; [eauto|]. apply in_map_iff in X. destruct X as ([f' e'] & X & L). cbn in X. inversion X; subst.
      exists b. split; [exact I|]. split; [exact IT|]. intros n SN. apply V; assumption.
    + intros t' x X. rewrite E2 in X. apply in_app_or in X. destruct X as [X|X].
      * destruct (HH _ _ X) as (b0 & e & B1 & B2 & B3 & B4 & B5). exists b0, e. repeat split; try assumption; try apply B5. destruct B4 as [B4|B4]; [left; apply GR; exact B4|right; exact B4].
      * apply in_map_iff in X. destruct X as (y & X & L). inversion X; subst. destruct (HP _ L) as (e & D & PR). exists b, e. split; [exact I|]. split; [exact IT|]. split; [exact PR|]. split.
        -- destruct D as [D|(D1 & D2)]; [left; apply NEW; exact D|right; exists p; auto].
        -- split; intros; subst; [eapply K1|eapply K2]; eassumption.
  - split; [exact N|]. destruct C as [C|(e & C)]; [left; exact C|right]. exists e. split; [apply NEW; exact C|]. intros n SN. apply V; assumption.
Qed.
Lemma grows_recorded tab bs fl b t p s s' : grows s s' -> recorded tab bs fl b t p s -> recorded tab bs fl b t p s'.
Proof. intros G (N & [C|(e & L & V)]); split; auto. right. exists e. auto. Qed.
Lemma foldo_sub {A} (f : state -> A -> option state) (P : state -> Prop) (D : A -> state -> Prop) (l0 : list A) :
  (forall x s s', In x l0 -> P s -> f s x = Some s' -> P s' /\ grows s s' /\ D x s') -> (forall x s s', grows s s' -> D x s -> D x s') ->
  forall l, incl l l0 -> forall s s', P s -> foldo f l s = Some s' -> P s' /\ grows s s' /\ forall x, In x l -> D x s'.
Proof.
  intros ST MO. induction l as [|x l IH]; intros IN s s' HP H; cbn in H.
  - inversion H; subst. split; [exact HP|]. split; [intros y Y; exact Y|]. intros y [].
  - destruct (f s x) as [s1|] eqn:E; [|discriminate]. destruct (ST x s s1 (IN x (or_introl eq_refl)) HP E) as (P1 & G1 & D1).
    destruct (IH (fun y Y => IN y (or_intror Y)) _ _ P1 H) as (P2 & G2 & D2).
    split; [exact P2|]. split; [intros y Y; apply G2, G1, Y|]. intros y [<-|Y]; [eapply MO; eassumption|apply D2; exact Y].
Qed.
Lemma setup_sound tab fl pm bs s : alike bs -> setup fl pm bs = Some s ->
  sound tab pm bs fl s /\ forall b t p, In b bs -> In t (b_targets b) -> In p pm -> recorded tab bs fl b t p s.
Proof.
  intros AL H. unfold setup in H.
  assert (G0 : sound tab pm bs fl state0).
  { split; [repeat split; cbn; intros; reflexivity|]. split; [intros x X; discriminate|]. split; [intros ? ? ? []|intros ? ? []]. }
  assert (T : forall b, In b bs -> forall t s s', In t (b_targets b) -> sound tab pm bs fl s -> on_target fl pm b s t = Some s' ->
    sound tab pm bs fl s' /\ grows s s' /\ forall p, In p pm -> recorded tab bs fl b t p s').
  { intros b I t s1 s2 IT S1 Q. unfold on_target in Q.
    apply (foldo_sub (step fl b t) (sound tab pm bs fl) (fun p s => recorded tab bs fl b t p s) pm) with (l := pm); try assumption.
    - intros p x y IP SX E. eapply step_sound; eassumption.
    - intros p x y G R. eapply grows_recorded; eassumption.
    - apply incl_refl. }
  assert (B : forall b s s', In b bs -> sound tab pm bs fl s -> on_block fl pm s b = Some s' ->
    sound tab pm bs fl s' /\ grows s s' /\ forall t, In t (b_targets b) -> forall p, In p pm -> recorded tab bs fl b t p s').
  { intros b s1 s2 I S1 Q. unfold on_block in Q.
    apply (foldo_sub (on_target fl pm b) (sound tab pm bs fl) (fun t s => forall p, In p pm -> recorded tab bs fl b t p s) (b_targets b)) with (l := b_targets b); try assumption.
    - intros t x y IT SX E. eapply T; eassumption.
    - intros t x y G R p IP. eapply grows_recorded; [exact G|apply R; exact IP].
    - apply incl_refl. }
  assert (X := foldo_sub (on_block fl pm) (sound tab pm bs fl) (fun b s => forall t, In t (b_targets b) -> forall p, In p pm -> recorded tab bs fl b t p s) bs).
  destruct (X (fun b x y I SX E => B b x y I SX E)) with (l := bs) (s := state0) (s' := s) as (Y & _ & Z); [intros b x y G R t IT p IP; eapply grows_recorded; [exact G|apply R; assumption]|apply incl_refl|exact G0|exact H|].
  split; [exact Y|]. intros b t p I IT IP. apply Z; assumption.
Qed.

(** * Theorems *)
(** a run that starts has, for every block, target and property, an evaluator whose value is what that block asked for; density is left to the
    gas-dynamics equations when they are used, and an enthalpy polynomial needs none *)
Theorem C108_every_property_supplied : forall tab fl pm bs s, alike bs -> setup fl pm bs = Some s ->
  forall b t p, In b bs -> In t (b_targets b) -> In p pm ->
  b_spec b p <> None /\
  ((p = 5%nat /\ exists x y z, b_spec b 5%nat = Some (SPoly x y z)) \/ (p = 0%nat /\ b_spec b 0%nat = Some SIdeal /\ gasDyn fl = true) \/
   exists e, In (t, F p, e) (s_regs s) /\ forall n, sane fl b n -> asked tab bs fl b n (F p) (value tab e n)).
Proof.
  intros tab fl pm bs s AL H b t p I IT IP. destruct (setup_sound tab fl pm bs s AL H) as (_ & K). destruct (K b t p I IT IP) as (N & [[C|C]|C]); split; auto.
Qed.
(** nothing is filled that no block asked for *)
Theorem C108_nothing_else : forall tab fl pm bs s, alike bs -> setup fl pm bs = Some s ->
  forall t f e, In (t, f, e) (s_regs s) -> exists b, In b bs /\ In t (b_targets b) /\ forall n, sane fl b n -> asked tab bs fl b n f (value tab e n).
Proof. intros tab fl pm bs s AL H. destruct (setup_sound tab fl pm bs s AL H) as ((_ & _ & K & _) & _). exact K. Qed.
(** the enthalpy used with a target belongs to the specific heat filled there: its derivative in the temperature is that specific heat (away
    from the polynomials' breakpoint), and constant-heat enthalpies are counted from the block's reference temperature *)
Theorem C108_enthalpy_consistent : forall tab fl pm bs s, alike bs -> setup fl pm bs = Some s ->
  (forall b p, In b bs -> In p pm -> b_spec b p = Some (SGeneric "water_specific_heat_T") -> p = 2%nat) ->
  forall t h, In (t, h) (s_h s) -> exists b e, In b bs /\ In t (b_targets b) /\ In (t, F 2, e) (s_regs s) /\
  (forall n, n_T n <> 0 -> n_T n <> 1000 -> is_derive (hvalue h n) (n_T n) (value tab e n)) /\
  (forall cp t0, h = HConst cp t0 -> t0 = T_of b) /\ (forall cpk hfk t0, h = HCpk cpk hfk t0 -> t0 = T_of b).
Proof.
  intros tab fl pm bs s AL H W t h L. destruct (setup_sound tab fl pm bs s AL H) as ((_ & _ & _ & K) & _).
  destruct (K t h L) as (b & e & I & IT & PR & D & T1 & T2). exists b, e. split; [exact I|]. split; [exact IT|].
  split; [destruct D as [D|(p & D & IP & E)]; [exact D|exfalso; apply D; eapply W; eassumption]|]. split; [|split; assumption].
  intros n N0 N1. destruct h as [cp t0|cpk hfk t0|ref lo hi r sp|]; cbn in PR; subst e; cbn [value].
  - exact (proj1 (proj2 (C53_constant_cp_derivative 0%nat (fun _ => 0) (fun _ => 0) (fun _ => 0) cp t0 (n_T n)))).
  - exact (proj1 (C53_constant_cp_derivative (List.length cpk) (n_Y n) (fun k => nth k cpk 0) (fun k => nth k hfk 0) 0 t0 (n_T n))).
  - exact (C53_specific_heat_is_enthalpy_derivative (List.length sp) (if ref then yref sp else n_Y n) (mw_ sp) lo hi r (n_T n) N0 N1).
  - exact (proj1 (C53_water_enthalpy (n_T n))).
Qed.
(** a property without a specification stops the run before it starts *)
Theorem C108_missing_specification_rejected : forall fl pm bs b t p, alike bs -> In b bs -> In t (b_targets b) -> In p pm -> b_spec b p = None -> setup fl pm bs = None.
Proof.
  intros fl pm bs b t p AL I IT IP E. destruct (setup fl pm bs) as [s|] eqn:H; [|reflexivity].
  destruct (C108_every_property_supplied (fun _ _ => 0) fl pm bs s AL H b t p I IT IP) as (N & _). contradiction.
Qed.
