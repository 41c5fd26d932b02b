(** C108: more on the material blocks: gas-dynamics heats, which evaluator wins, counterexamples, and a block that meets the hypotheses. *)
From Coq Require Import Reals List Bool String Lra Lia.
From Verif Require Import Edge_Model Prop_Model Mat_Model Mat_Props.
Import ListNotations.
Open Scope R_scope.

Lemma setup_each (D : block -> string -> nat -> state -> Prop) tab fl pm bs s : alike bs -> setup fl pm bs = Some s ->
  (forall b t p x y, In b bs -> In t (b_targets b) -> In p pm -> sound tab pm bs fl x -> step fl b t x p = Some y -> D b t p y) ->
  (forall b t p x y, grows x y -> D b t p x -> D b t p y) ->
  forall b t p, In b bs -> In t (b_targets b) -> In p pm -> D b t p s.
Proof.
  intros AL H HD MO. unfold setup in H.
  assert (G0 : sound tab pm bs fl state0).
  { split; [repeat split; cbn; intros; reflexivity|]. split; [intros x X; discriminate|]. split; [intros ? ? ? []|intros ? ? []]. }
  assert (T : forall b, In b bs -> forall t x y, In t (b_targets b) -> sound tab pm bs fl x -> on_target fl pm b x t = Some y ->
    sound tab pm bs fl y /\ grows x y /\ forall p, In p pm -> D b t p y).
  { intros b I t s1 s2 IT S1 Q. unfold on_target in Q.
    apply (foldo_sub (step fl b t) (sound tab pm bs fl) (fun p s => D b t p s) pm) with (l := pm); try assumption.
    - intros p x y IP SX E. destruct (step_sound tab pm bs fl b t p x y AL I IT IP SX E) as (A & B & _). split; [exact A|split; [exact B|]]. exact (HD b t p x y I IT IP SX E).
    - intros p x y G R. eapply MO; eassumption.
    - apply incl_refl. }
  assert (B : forall b x y, In b bs -> sound tab pm bs fl x -> on_block fl pm x b = Some y ->
    sound tab pm bs fl y /\ grows x y /\ forall t, In t (b_targets b) -> forall p, In p pm -> D b t p y).
  { intros b s1 s2 I S1 Q. unfold on_block in Q.
    apply (foldo_sub (on_target fl pm b) (sound tab pm bs fl) (fun t s => forall p, In p pm -> D b t p s) (b_targets b)) with (l := b_targets b); try assumption.
    - intros t x y IT SX E. eapply T; eassumption.
    - intros t x y G R p IP. eapply MO; [exact G|apply R; exact IP].
    - apply incl_refl. }
  assert (X := foldo_sub (on_block fl pm) (sound tab pm bs fl) (fun b s => forall t, In t (b_targets b) -> forall p, In p pm -> D b t p s) bs).
  destruct (X (fun b x y I SX E => B b x y I SX E)) with (l := bs) (s := state0) (s' := s) as (_ & _ & Z); [intros b x y G R t IT p IP; eapply MO; [exact G|apply R; assumption]|apply incl_refl|exact G0|exact H|].
  intros b t p I IT IP. apply Z; assumption.
Qed.

(** a gas given by its ratio of specific heats gets both heats, and they satisfy Mayer's relation and have that ratio *)
Theorem C108_gamma_gives_both_heats : forall fl pm bs s, alike bs -> setup fl pm bs = Some s ->
  forall b t g cpk hfk M, In b bs -> In t (b_targets b) -> In 10%nat pm -> b_spec b 10%nat = Some (SConst g cpk hfk) -> g <> 1 -> mixture (b_species b) (fun k => snd (nth k (b_species b) (0,0))) M ->
  exists cp cv, In (t, F 10, EConst g) (s_regs s) /\ In (t, F 2, EConst cp) (s_regs s) /\ In (t, FCv, EConst cv) (s_regs s) /\ cp = g * cv /\ (cp - cv) * M = R_of b.
Proof.
  intros fl pm bs s AL H.
  assert (K := setup_each (fun b t p s => p = 10%nat -> forall g cpk hfk M, b_spec b 10%nat = Some (SConst g cpk hfk) -> g <> 1 -> mixture (b_species b) (fun k => snd (nth k (b_species b) (0,0))) M ->
     exists cp cv, In (t, F 10, EConst g) (s_regs s) /\ In (t, F 2, EConst cp) (s_regs s) /\ In (t, FCv, EConst cv) (s_regs s) /\ cp = g * cv /\ (cp - cv) * M = R_of b)
     (fun _ _ => 0) fl pm bs s AL H).
  intros b t g cpk hfk M I IT IP E G1 HM. refine (K _ _ b t 10%nat I IT IP eq_refl g cpk hfk M E G1 HM); clear - AL.
  - intros b t p x y I IT IP (ST & _) Q -> g cpk hfk M E G1 HM. unfold step in Q. rewrite E in Q. cbn [Nat.eqb andb] in Q.
    destruct (gasDyn fl); [|discriminate]. destruct (is_nil cpk); cbn [negb] in Q; [|discriminate]. destruct (acoustic fl); cbn [negb] in Q; [|discriminate].
    injection Q as Q. subst y. cbn [s_regs put].
    assert (EM : mixture_mw (List.length (b_species b)) (yref (b_species b)) (mw_ (b_species b)) = M /\ M <> 0).
    { unfold mixture in HM. assert (Z : sumn (List.length (b_species b)) (fun k => snd (nth k (b_species b) (0,0)) / fst (nth k (b_species b) (0,0))) <> 0) by (intros Z; rewrite Z in HM; lra).
      split; [|intros Z2; rewrite Z2 in HM; lra]. unfold mixture_mw, yref, mw_. apply (Rmult_eq_reg_r _ _ _) with (2 := Z). rewrite HM. field. exact Z. }
    destruct EM as [EM M0]. rewrite EM.
    destruct (getT bs b (s_refs x)) as (T1 & _); [assumption|assumption|assumption|].
    destruct (getR bs b (get_T b (s_refs x))) as (_ & R2 & _); [assumption|assumption|assumption|]. rewrite R2.
    exists (g * R_of b / M / (g - 1)), (R_of b / M / (g - 1)).
    split; [apply in_or_app; right; left; reflexivity|]. split; [apply in_or_app; right; right; left; reflexivity|]. split; [apply in_or_app; right; right; right; left; reflexivity|].
    split; field; (split; [lra|exact M0]) || (split; [exact M0|lra]).
  - intros b t p x y G K P g cpk hfk M E G1 HM. destruct (K P g cpk hfk M E G1 HM) as (cp & cv & A & B & C & D). exists cp, cv. auto.
Qed.
(** a single block, or blocks that give every constant, meet the hypothesis of the theorems above *)
Theorem C108_one_block_is_alike : forall b, alike [b].
Proof. intros b. repeat split; intros; cbn in *; intuition congruence. Qed.
Theorem C108_full_blocks_are_alike : forall bs, (forall b, In b bs -> b_T b <> None /\ b_p b <> None /\ b_R b <> None) -> alike bs.
Proof. intros bs H. repeat split; intros E; exfalso; match goal with I : In ?b bs, E : _ ?b = None |- _ => destruct (H b I) as (A & B & C); congruence end. Qed.

(** * Where the claim fails *)
Local Open Scope string_scope.
Definition heat_block (nm : string) (T : option R) : block := mkBlock [nm] (fun p => if Nat.eqb p 2 then Some (SConst 1000 [] []) else None) T None None [] "".
(** a block without a reference temperature takes that of the block before it instead of the default: its enthalpies are counted from there *)
Theorem C108_constants_leak_refuted : exists fl pm bs s, setup fl pm bs = Some s /\
  (exists b, In b bs /\ In "solid" (b_targets b) /\ b_T b = None) /\ In ("solid", HConst 1000 500) (s_h s) /\ ~ In ("solid", HConst 1000 298.15) (s_h s) /\
  (exists s', setup fl pm [heat_block "solid" None] = Some s' /\ In ("solid", HConst 1000 298.15) (s_h s')).
Proof.
  exists (mkFlags true false true false false), [2%nat], [heat_block "fluid" (Some 500); heat_block "solid" None]. eexists. split; [reflexivity|].
  split; [exists (heat_block "solid" None); cbn; auto|]. split; [cbn; auto|]. split.
  - cbn. intros [H|[H|[]]]; inversion H; lra.
  - eexists. split; [reflexivity|]. cbn. auto.
Qed.
Definition table_block (nm file : string) : block := mkBlock [nm] (fun p => if Nat.eqb p 1 then Some STable else None) None None None [] file.
(** the second block's property table is never opened: its property is read from the first block's *)
Theorem C108_second_table_refuted : exists fl pm bs s, setup fl pm bs = Some s /\
  (exists b, In b bs /\ In "b2" (b_targets b) /\ b_table b = "two.h5") /\ In ("b2", F 1, ETable "one.h5") (s_regs s) /\ forall t p, ~ In (t, p, ETable "two.h5") (s_regs s).
Proof.
  exists (mkFlags true false true false false), [1%nat], [table_block "b1" "one.h5"; table_block "b2" "two.h5"]. eexists. split; [reflexivity|].
  split; [exists (table_block "b2" "two.h5"); cbn; auto|]. split; [cbn; auto|]. intros t p. cbn. intros [H|[H|[]]]; inversion H.
Qed.
(** constants given species by species are understood only for the specific heat of a run that needs enthalpy; any other property so given is
    silently zero everywhere *)
Theorem C108_species_constants_zero_refuted : forall fl b t p cpk hfk x, b_spec b p = Some (SConst 0 cpk hfk) -> p <> 10%nat -> (p <> 2%nat \/ needsH fl = false) ->
  exists y, step fl b t x p = Some y /\ In (t, F p, EConst 0) (s_regs y) /\ forall tab n, value tab (EConst 0) n = 0.
Proof.
  intros fl b t p cpk hfk x E P10 P2. unfold step. rewrite E.
  assert (Q : (Nat.eqb p 2 && needsH fl)%bool = false).
  { destruct (Nat.eqb p 2) eqn:A; [|reflexivity]. apply PeanoNat.Nat.eqb_eq in A. destruct P2 as [P2|P2]; [contradiction|exact P2]. }
  rewrite Q. destruct (Nat.eqb p 10) eqn:A; [apply PeanoNat.Nat.eqb_eq in A; contradiction|].
  eexists. split; [reflexivity|]. split; [cbn; apply in_or_app; right; left; reflexivity|]. reflexivity.
Qed.
(** a uniform isothermal gas asked to be acoustically compressible is accepted, and its density does not see the pressure *)
Theorem C108_isothermal_ignores_pressure_refuted : forall fl b t x, b_spec b 0%nat = Some SIdeal -> uniform fl = true -> isothermal fl = true -> acoustic fl = true -> gasDyn fl = false ->
  exists y e, step fl b t x 0 = Some y /\ In (t, F 0, e) (s_regs y) /\
  forall tab n q, value tab e (mkNode q (n_T n) (n_Y n) (n_Z n) (n_vof n) (n_vol n) (n_scale n)) = value tab e n.
Proof.
  intros fl b t x E U IS AC G. unfold step. rewrite E. cbn [Nat.eqb]. rewrite U, IS, G. eexists _, _. split; [reflexivity|].
  split; [cbn; apply in_or_app; right; left; reflexivity|]. reflexivity.
Qed.
(** the same input without the isothermal assumption, or with several species, follows the pressure or is refused *)
Theorem C108_mixture_pressure_refused : forall fl b t x, b_spec b 0%nat = Some SIdeal -> uniform fl = false -> acoustic fl = true -> step fl b t x 0 = None.
Proof. intros fl b t x E U A. unfold step. rewrite E. cbn [Nat.eqb]. rewrite U, A. destruct (isothermal fl); reflexivity. Qed.

(** * A block that meets the hypotheses: nitrogen and oxygen, ideal-gas density, constant heat, mixed viscosity *)
Definition air : block := mkBlock ["air"] (fun p => match p with 0%nat => Some SIdeal | 1%nat => Some (SMix 2 4) | 2%nat => Some (SConst 1000 [] []) | _ => None end) None (Some 100000) (Some 8000) [(28, 3/4); (32, 1/4)] "".
Theorem C108_nonvacuous : let fl := mkFlags true false true false false in
  exists s, setup fl [0%nat; 1%nat; 2%nat] [air] = Some s /\ alike [air] /\
  (forall n, n_vol n <> 0 -> n_T n <> 0 -> sane fl air n) /\
  exists e, In ("air", F 0, e) (s_regs s) /\ forall tab n, n_T n <> 0 -> value tab e n * 8000 * n_T n * (3/4/28 + 1/4/32) = 100000.
Proof.
  intros fl. eexists. split; [reflexivity|]. split; [apply C108_one_block_is_alike|]. split.
  - intros n V T. split; [exact V|]. split; [unfold R_of; cbn; lra|]. split; [exact T|]. split; [unfold T_of; cbn; lra|]. split; [intros a c X; discriminate|]. split; [intros g c h X; discriminate|].
    split; [intros _; unfold Yused, sumn; cbn; lra|intros g c h X; discriminate].
  - eexists. split; [cbn; left; reflexivity|]. intros tab n T. cbn [value]. unfold ideal_PrefTYkref, mixture_mw, yref, mw_, sumn. cbn. field. exact T.
Qed.
