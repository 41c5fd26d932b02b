(** C98, second part: how often and when each transfer of a coupled run is executed. *)
From Coq Require Import Reals ZArith List Bool String Lia Lra Sorted.
From Verif Require Import Opt_Model Time_Model Time_Spec Time_Spec2 Time_Proofs Time_Proofs2 Time_Proofs3 Time_Proofs4 Time_Props Couple_Model Couple_Props.
Import ListNotations.
Open Scope list_scope.

(** executions of transfer x in a record *)
Fixpoint times (x : nat) (w : list action) : nat :=
  match w with [] => 0 | Ran y _ :: w' => (if Nat.eqb y x then 1 else 0) + times x w' | _ :: w' => times x w' end.
(** how many of the counts in l the test accepts *)
Fixpoint howmany (f : Z -> bool) (l : list Z) : nat := match l with [] => 0 | c :: l' => (if f c then 1 else 0) + howmany f l' end.

Lemma times_app x a b : times x (a ++ b) = (times x a + times x b)%nat.
Proof. induction a as [|[y c|r c|r c] a IH]; cbn; lia. Qed.
Lemma times_ran x c l : times x (ran l c) = count_occ Nat.eq_dec l x.
Proof.
  induction l as [|y l IH]; cbn [times count_occ ran map]; [reflexivity|]. fold (ran l c). rewrite IH.
  destruct (Nat.eqb_spec y x), (Nat.eq_dec y x); try contradiction; lia.
Qed.
Lemma times_flat x {A} (f : A -> list action) l : times x (flat_map f l) = list_sum (map (fun a => times x (f a)) l).
Proof. induction l as [|a l IH]; cbn [flat_map map list_sum fold_right]; [reflexivity|]. rewrite times_app, IH. reflexivity. Qed.
Lemma times_concat x a n : times x (List.concat (repeat a n)) = (n * times x a)%nat.
Proof. induction n as [|n IH]; cbn [repeat List.concat]; [reflexivity|]. rewrite times_app, IH. lia. Qed.
(** only one realm contributes *)
Lemma one_realm (g : nat -> nat) own k : forall rs, NoDup rs -> (forall r, g r = if Nat.eqb r own then k else 0%nat) ->
  list_sum (map g rs) = if in_dec Nat.eq_dec own rs then k else 0%nat.
Proof.
  induction rs as [|r rs IH]; intros ND H; [reflexivity|]. inversion ND as [|? ? N ND']; subst.
  cbn [map list_sum fold_right]. fold (list_sum (map g rs)). rewrite (IH ND' H), H.
  destruct (Nat.eqb_spec r own) as [->|NE].
  - destruct (in_dec Nat.eq_dec own rs) as [I1|]; [contradiction|]. destruct (in_dec Nat.eq_dec own (own :: rs)) as [|Q]; [lia|]. exfalso; apply Q; now left.
  - destruct (in_dec Nat.eq_dec own rs) as [I1|N1]; destruct (in_dec Nat.eq_dec own (r :: rs)) as [I2|N2]; try lia.
    + exfalso; apply N2; now right.
    + exfalso. destruct I2; congruence.
Qed.
Lemma sum_const {A} (g : A -> nat) k l : (forall a, g a = k) -> list_sum (map g l) = (List.length l * k)%nat.
Proof. intros H. induction l as [|a l IH]; cbn [map list_sum fold_right List.length]; [reflexivity|]. fold (list_sum (map g l)). rewrite IH, H. lia. Qed.
Lemma sum_howmany (f : Z -> bool) k l : list_sum (map (fun c => if f c then k else 0%nat) l) = (k * howmany f l)%nat.
Proof. induction l as [|c l IH]; cbn [map list_sum fold_right howmany]; [lia|]. fold (list_sum (map (fun c => if f c then k else 0%nat) l)). rewrite IH. destruct (f c); lia. Qed.

Section Counts.
Variables (names : list string) (ds : list xdecl) (L : nat -> rlists) (cf : nat -> rcfg) (rs : list nat)
          (inT : nat -> option R) (rst : nat -> option restart_db) (prop : nat -> TI -> list action -> R).
Hypothesis HL : breadboard names 0 ds no_lists = Some L.
Hypothesis ND : NoDup rs.
Notation E := (coupled L cf rs inT rst prop).

Lemma occ_list x d o f t : nth_error ds x = Some d ->
  objective_of (x_objective d) = Some o -> find_realm names (fst (x_realms d)) = Some f -> find_realm names (snd (x_realms d)) = Some t ->
  forall o' r, count_occ Nat.eq_dec (list_of o' (L r)) x = if obj_eqb o o' && Nat.eqb r (owner o f t) then 1%nat else 0%nat.
Proof.
  intros Hx Ho Hf Ht o' r.
  destruct (C98_every_transfer_attached_once names ds L HL x d Hx) as (o1 & f1 & t1 & Ho1 & Hf1 & Ht1 & A).
  assert (o1 = o) by congruence. assert (f1 = f) by congruence. assert (t1 = t) by congruence. subst o1 f1 t1. clear Ho1 Hf1 Ht1.
  assert (NDl : NoDup (list_of o' (L r))).
  { destruct (breadboard_gen names ds 0 no_lists L HL) as (oft & _ & AL). rewrite AL.
    replace (list_of o' (no_lists r)) with (@nil nat) by (destruct o'; reflexivity). cbn [app].
    pose proof (attached_ascending o' r oft 0) as S. induction S as [|a l S IH F]; constructor; [|assumption].
    intros I. rewrite Forall_forall in F. specialize (F a I). lia. }
  destruct (obj_eqb_spec o o') as [<-|NO]; cbn [andb].
  - destruct (Nat.eqb_spec r (owner o f t)) as [->|NR].
    + apply NoDup_count_occ'; [assumption|]. now apply A.
    + apply count_occ_not_In. intros I. apply A in I. now destruct I.
  - apply count_occ_not_In. intros I. apply A in I. destruct I; congruence.
Qed.

(** each transfer is run by one realm: the from realm for multi_physics and initialization, the to realm for input_output
    and external_data; if the integrator does not name that realm the transfer is never run.  Over a run of n steps:
    initialization once; external_data once at the start and once a step; input_output whenever the count is a multiple of the
    output frequency, the start included; multi_physics once per nonlinear iteration of the steps in which the realm is
    solved, and once at the start if the realm is restarted *)
Theorem C98_execution_counts x d o f t fuel i s : nth_error ds x = Some d ->
  objective_of (x_objective d) = Some o -> find_realm names (fst (x_realms d)) = Some f -> find_realm names (snd (x_realms d)) = Some t ->
  integrate_realm E fuel i [] = Some s ->
  let n := List.length (log s) in let c0 := last_restart_count E rs (dflt (in_count i) 0%Z) in
  let steps := counts_from c0 n in let nl := dflt (in_nl i) 1%nat in
  map l_count (log s) = steps /\
  times x (world s) =
    if in_dec Nat.eq_dec (match o with MultiPhysics | Initialization => f | InputOutput | ExternalData => t end) rs then
      match o with
      | Initialization => 1%nat
      | ExternalData => S n
      | InputOutput => howmany (fun c => (Z.rem c (rc_outFreq (cf t)) =? 0)%Z) (c0 :: steps)
      | MultiPhysics => ((match rst f with Some _ => 1 | None => 0 end) + nl * howmany (active (cf f)) steps)%nat
      end
    else 0%nat.
Proof.
  intros Hx Ho Hf Ht H n c0 steps nl. destruct (C98_run_schedule L cf rs inT rst prop fuel i s H) as [W LC]. fold n c0 in W, LC.
  split; [exact LC|]. cbv beta in W. rewrite W. fold steps nl. clear W LC H.
  assert (LS : List.length steps = n) by (unfold steps, counts_from; now rewrite map_length, seq_length). clearbody steps n.
  pose proof (occ_list x d o f t Hx Ho Hf Ht) as OC.
  change (match o with MultiPhysics | Initialization => f | InputOutput | ExternalData => t end) with (owner o f t).
  remember (owner o f t) as own eqn:Eown.
  (* contribution of each kind of call *)
  assert (Q : forall o', (forall r, count_occ Nat.eq_dec (list_of o' (L r)) x = if Nat.eqb r own then if obj_eqb o o' then 1%nat else 0%nat else 0%nat)).
  { intros o' r. rewrite OC. destruct (obj_eqb o o'), (Nat.eqb r own); reflexivity. }
  assert (K1 : forall o' c, times x (flat_map (fun r => ran (list_of o' (L r)) c) rs) =
             if in_dec Nat.eq_dec own rs then if obj_eqb o o' then 1%nat else 0%nat else 0%nat).
  { intros o' c. rewrite times_flat. apply one_realm; [exact ND|]. intros r. rewrite times_ran. apply Q. }
  assert (KE : forall c, times x (flat_map (fun r => ran (l_ext (L r)) c) rs) = if in_dec Nat.eq_dec own rs then if obj_eqb o ExternalData then 1%nat else 0%nat else 0%nat)
    by (intros c; exact (K1 ExternalData c)).
  assert (KI : forall c, times x (flat_map (fun r => ran (l_init (L r)) c) rs) = if in_dec Nat.eq_dec own rs then if obj_eqb o Initialization then 1%nat else 0%nat else 0%nat)
    by (intros c; exact (K1 Initialization c)).
  assert (KIO : forall c, times x (flat_map (fun r => did L cf IoXfer r c) rs) =
     if in_dec Nat.eq_dec own rs then if obj_eqb o InputOutput then if (Z.rem c (rc_outFreq (cf own)) =? 0)%Z then 1%nat else 0%nat else 0%nat else 0%nat).
  { intros c. rewrite times_flat. apply one_realm; [exact ND|]. intros r. cbn [did].
    specialize (Q InputOutput r). cbn [list_of] in Q. destruct (Nat.eqb_spec r own) as [ER|NR]; [rewrite <- ER|].
    - destruct (_ =? 0)%Z; [rewrite times_ran, Q; reflexivity|]. now destruct (obj_eqb o InputOutput).
    - destruct (_ =? 0)%Z; [rewrite times_ran, Q; reflexivity|reflexivity]. }
  assert (KO : forall c, times x (flat_map (fun r => did L cf Output r c) rs) = 0%nat).
  { intros c. rewrite times_flat. rewrite (sum_const _ 0%nat); [lia|]. intros r. cbn [did]. match goal with |- context[if ?b then _ else _] => destruct b end; reflexivity. }
  assert (KM : forall c, times x (sweep L cf rs c) =
     if in_dec Nat.eq_dec own rs then if obj_eqb o MultiPhysics then if active (cf own) c then 1%nat else 0%nat else 0%nat else 0%nat).
  { intros c. unfold sweep. rewrite times_flat. apply one_realm; [exact ND|]. intros r. rewrite times_app. cbn [did].
    specialize (Q MultiPhysics r). cbn [list_of] in Q. rewrite orb_false_r. destruct (Nat.eqb_spec r own) as [ER|NR]; [rewrite <- ER|].
    - destruct (active (cf r) c); [rewrite times_ran, Q; reflexivity|]. now destruct (obj_eqb o MultiPhysics).
    - destruct (active (cf r) c); [rewrite times_ran, Q; reflexivity|reflexivity]. }
  assert (KR : forall c, times x (flat_map (fun r => match rst r with Some _ => ran (l_multi (L r)) c | None => [] end) rs) =
     if in_dec Nat.eq_dec own rs then if obj_eqb o MultiPhysics then match rst own with Some _ => 1%nat | None => 0%nat end else 0%nat else 0%nat).
  { intros c. rewrite times_flat. apply one_realm; [exact ND|]. intros r.
    specialize (Q MultiPhysics r). cbn [list_of] in Q. destruct (Nat.eqb_spec r own) as [ER|NR]; [rewrite <- ER|].
    - destruct (rst r); [rewrite times_ran, Q; reflexivity|]. now destruct (obj_eqb o MultiPhysics).
    - destruct (rst r); [rewrite times_ran, Q; reflexivity|reflexivity]. }
  assert (ST : forall c, times x (step_actions L cf rs nl c) =
     if in_dec Nat.eq_dec own rs then
       match o with Initialization => 0%nat | ExternalData => 1%nat
       | InputOutput => if (Z.rem c (rc_outFreq (cf own)) =? 0)%Z then 1%nat else 0%nat
       | MultiPhysics => if active (cf own) c then nl else 0%nat end else 0%nat).
  { intros c. unfold step_actions. rewrite !times_app, times_concat, KE, KM, KIO, KO.
    destruct (in_dec Nat.eq_dec own rs); [|lia]. destruct o; cbn [obj_eqb];
      repeat match goal with |- context[if ?b then _ else _] => destruct b end; lia. }
  rewrite times_app. rewrite times_flat.
  unfold startup_actions. rewrite !times_app, KI, KIO, KE, KR, KO.
  destruct (in_dec Nat.eq_dec own rs) as [I1|N1].
  2:{ rewrite (sum_const _ 0%nat) by (intros c; apply ST). lia. }
  destruct o; cbn [obj_eqb howmany].
  - rewrite (map_ext _ (fun c => if active (cf own) c then nl else 0%nat)) by (intros c; apply ST).
    rewrite sum_howmany. subst own. cbn [owner]. lia.
  - rewrite (sum_const _ 0%nat) by (intros c; apply ST). lia.
  - rewrite (map_ext _ (fun c => if (Z.rem c (rc_outFreq (cf own)) =? 0)%Z then 1%nat else 0%nat)) by (intros c; apply ST).
    rewrite sum_howmany. subst own. cbn [owner]. lia.
  - rewrite (sum_const _ 1%nat) by (intros c; apply ST). lia.
Qed.
End Counts.
