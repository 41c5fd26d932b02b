(** * C102: every keyword of a boundary condition reaches the member it is documented to set, and no other *)
From Coq Require Import Reals List Bool String Arith Lia Lra ZArith Permutation.
From Verif Require Import Opt_Model Opt_Spec Opt_Props Input_Model Input_Spec.
Import ListNotations.
Open Scope string_scope.

Ltac each H := cbn in H; repeat (destruct H as [<-|H]); try contradiction.
Ltac nodup := repeat (apply NoDup_cons; [cbn; intuition discriminate|]); apply NoDup_nil.
Section P.
Variables (as_d : yaml -> option R) (as_b : yaml -> option bool) (as_s : yaml -> option string) (as_i : yaml -> option Z).
Notation conv := (conv as_d as_b as_s as_i).
Notation load_entry := (load_entry as_d as_b as_s as_i).
Notation load_entries := (load_entries as_d as_b as_s as_i).
Notation load_functions := (load_functions as_d as_s).
Notation load_wall := (load_wall as_d as_b as_s as_i).
Notation load_inflow := (load_inflow as_d as_b as_s as_i).
Notation load_open := (load_open as_d as_b as_s as_i).
Notation load_overset := (load_overset as_d as_b as_s as_i).
Notation load_nonconf := (load_nonconf as_d as_b as_s as_i).
Notation load_bc := (load_bc as_d as_b as_s as_i).
Notation value_ok := (value_ok as_d as_b as_s as_i).
Notation readable := (readable as_d as_b as_s as_i).

Lemma upd_same {V} (m : smap V) k v : upd m k v k = Some v.
Proof. unfold upd. now rewrite String.eqb_refl. Qed.
Lemma upd_other {V} (m : smap V) k v k' : k' <> k -> upd m k v k' = m k'.
Proof. intros H. unfold upd. destruct (String.eqb_spec k' k); [contradiction|reflexivity]. Qed.

(** ** sequences of entries *)
Lemma entry_cases y e u u' : load_entry y e u = Some u' ->
  (yget (e_test e) y = None /\ u' = u /\ e_req e = false) \/
  (exists v q, yget (e_test e) y <> None /\ yget (e_key e) y = Some v /\ conv (e_kind e) v = Some q /\ u' = set_entry e q u).
Proof.
  unfold Input_Model.load_entry. destruct (yget (e_test e) y) as [t|] eqn:T.
  - destruct (yget (e_key e) y) as [v|] eqn:V; [|discriminate]. destruct (conv (e_kind e) v) as [q|] eqn:Q; [|discriminate].
    intros E. injection E as <-. right. exists v, q. repeat split; auto; congruence.
  - destruct (e_req e) eqn:Rq; [discriminate|]. intros E. injection E as <-. left. auto.
Qed.
Lemma entries_app y l l' u : load_entries y (l ++ l') u = match load_entries y l u with Some u1 => load_entries y l' u1 | None => None end.
Proof. revert u. induction l as [|e l IH]; intro u; cbn; [reflexivity|]. destruct (load_entry y e u); [apply IH|reflexivity]. Qed.
Lemma entries_mem_out y l u u' m : load_entries y l u = Some u' -> ~ In m (map e_mem l) -> mem u' m = mem u m.
Proof.
  revert u. induction l as [|e l IH]; intros u; cbn; [now intros [= <-]|]. destruct (load_entry y e u) as [u1|] eqn:E; [|discriminate].
  intros H N. rewrite (IH _ H) by tauto. destruct (entry_cases _ _ _ _ E) as [(_ & -> & _)|(v & q & _ & _ & _ & ->)]; [reflexivity|].
  cbn. apply upd_other. intuition.
Qed.
Lemma entries_mem y l u u' e : load_entries y l u = Some u' -> NoDup (map e_mem l) -> In e l ->
  match yget (e_test e) y with
  | Some _ => exists v q, yget (e_key e) y = Some v /\ conv (e_kind e) v = Some q /\ mem u' (e_mem e) = Some q
  | None => mem u' (e_mem e) = mem u (e_mem e) /\ e_req e = false end.
Proof.
  revert u. induction l as [|a l IH]; [intros u _ _ []|]; intros u H ND [->|I]; cbn in H; destruct (load_entry y _ u) as [u1|] eqn:E; try discriminate.
  - cbn in ND. apply NoDup_cons_iff in ND. destruct ND as (NI & _). pose proof (entries_mem_out _ _ _ _ (e_mem e) H NI) as O.
    destruct (entry_cases _ _ _ _ E) as [(T & -> & Rq)|(v & q & T & V & Q & ->)].
    + rewrite T. auto.
    + destruct (yget (e_test e) y); [|contradiction]. exists v, q. rewrite O. cbn. rewrite upd_same. auto.
  - cbn in ND. apply NoDup_cons_iff in ND. destruct ND as (NI & ND). specialize (IH _ H ND I).
    destruct (yget (e_test e) y); [exact IH|]. destruct IH as (-> & ->). split; [|reflexivity].
    destruct (entry_cases _ _ _ _ E) as [(_ & -> & _)|(v & q & _ & _ & _ & ->)]; [reflexivity|]. cbn. apply upd_other. intros X. apply NI. rewrite <- X. now apply in_map.
Qed.
Definition flags_of (l : list entry) : list string := flat_map (fun e => match e_flag e with Some f => [f] | None => [] end) l.
Lemma entries_flag_out y l u u' f : load_entries y l u = Some u' -> ~ In f (flags_of l) -> flg u' f = flg u f.
Proof.
  revert u. induction l as [|e l IH]; intros u; cbn; [now intros [= <-]|]. destruct (load_entry y e u) as [u1|] eqn:E; [|discriminate].
  intros H N. rewrite (IH _ H) by (intro; apply N, in_or_app; auto). destruct (entry_cases _ _ _ _ E) as [(_ & -> & _)|(v & q & _ & _ & _ & ->)]; [reflexivity|].
  cbn. destruct (e_flag e) as [g|]; [|reflexivity]. apply upd_other. intros ->. apply N. now left.
Qed.
Lemma entries_flag y l u u' e f : load_entries y l u = Some u' -> NoDup (flags_of l) -> In e l -> e_flag e = Some f ->
  flg u' f = match yget (e_test e) y with Some _ => Some true | None => flg u f end.
Proof.
  revert u. induction l as [|a l IH]; [intros u _ _ []|]; intros u H ND [->|I] F; cbn in H; destruct (load_entry y _ u) as [u1|] eqn:E; try discriminate.
  - cbn in ND. rewrite F in ND. cbn in ND. apply NoDup_cons_iff in ND. destruct ND as (NI & _). rewrite (entries_flag_out _ _ _ _ f H NI).
    destruct (entry_cases _ _ _ _ E) as [(T & -> & _)|(v & q & T & V & Q & ->)].
    + now rewrite T.
    + destruct (yget (e_test e) y); [|contradiction]. cbn. rewrite F. apply upd_same.
  - cbn in ND. assert (ND' : NoDup (flags_of l)) by (destruct (e_flag a); cbn in ND; [now apply NoDup_cons_iff in ND|exact ND]).
    rewrite (IH _ H ND' I F). destruct (yget (e_test e) y); [reflexivity|].
    destruct (entry_cases _ _ _ _ E) as [(_ & -> & _)|(v & q & _ & _ & _ & ->)]; [reflexivity|]. cbn. destruct (e_flag a) as [g|] eqn:G; [|reflexivity].
    apply upd_other. intros ->. cbn in ND. apply NoDup_cons_iff in ND. apply (proj1 ND). unfold flags_of. apply in_flat_map. exists e. split; [assumption|]. rewrite F. now left.
Qed.
Lemma entries_rest y l u u' : load_entries y l u = Some u' -> fn u' = fn u /\ par u' = par u /\ spar u' = spar u.
Proof.
  revert u. induction l as [|e l IH]; intros u; cbn; [now intros [= <-]|]. destruct (load_entry y e u) as [u1|] eqn:E; [|discriminate].
  intros H. destruct (IH _ H) as (-> & -> & ->). destruct (entry_cases _ _ _ _ E) as [(_ & -> & _)|(v & q & _ & _ & _ & ->)]; auto.
Qed.
Lemma entries_ok y l u : (exists u', load_entries y l u = Some u') <->
  (forall e, In e l -> match yget (e_test e) y with Some _ => exists v, yget (e_key e) y = Some v /\ conv (e_kind e) v <> None | None => e_req e = false end).
Proof.
  revert u. induction l as [|a l IH]; intros u; cbn.
  - split; [intros _ e []|eauto].
  - unfold Input_Model.load_entry at 1. split.
    + intros (u' & H). intros e [->|I].
      * destruct (yget (e_test e) y); [|destruct (e_req e); [discriminate|reflexivity]].
        destruct (yget (e_key e) y) as [v|]; [|discriminate]. exists v. split; [reflexivity|]. intros Z. rewrite Z in H. discriminate.
      * destruct (match yget (e_test a) y with Some _ => _ | None => _ end) as [u1|]; [|discriminate]. apply (proj1 (IH u1)); eauto.
    + intros H. pose proof (H a (or_introl eq_refl)) as Ha. destruct (yget (e_test a) y).
      * destruct Ha as (v & -> & C). destruct (conv (e_kind a) v); [|contradiction]. cbn. apply IH. exact (fun e I => H e (or_intror I)).
      * rewrite Ha. apply IH. exact (fun e I => H e (or_intror I)).
Qed.
(** maps of specified data *)
Lemma entries_spc y l u u' k : load_entries y l u = Some u' -> (forall e, In e l -> e_map e = true -> e_test e = e_key e) ->
  spc u' k = (if existsb (fun e => e_map e && String.eqb (e_key e) k && present k y)%bool l then Some true else spc u k) /\
  typ u' k = (if existsb (fun e => e_map e && String.eqb (e_key e) k && present k y)%bool l then Some CONSTANT_UD else typ u k).
Proof.
  revert u. induction l as [|e l IH]; intros u; cbn; [intros [= <-]; auto|]. destruct (load_entry y e u) as [u1|] eqn:E; [|discriminate].
  intros H M. destruct (IH _ H) as (-> & ->); [intros; apply M; auto|]. unfold present.
  destruct (existsb _ l); [rewrite orb_true_r; auto|]. rewrite orb_false_r.
  destruct (entry_cases _ _ _ _ E) as [(T & -> & _)|(v & q & T & V & Q & ->)]; cbn.
  - destruct (e_map e) eqn:Em; [|auto]. rewrite (M e (or_introl eq_refl) Em) in T. destruct (String.eqb_spec (e_key e) k) as [<-|]; [|auto]. rewrite T. auto.
  - destruct (e_map e) eqn:Em; [|auto]. unfold upd. rewrite (String.eqb_sym k). destruct (String.eqb_spec (e_key e) k) as [<-|]; [|auto]. rewrite V. auto.
Qed.

(** ** user functions *)
Lemma fns_spec kvs u u' : load_fns as_s kvs u = Some u' ->
  mem u' = mem u /\ flg u' = flg u /\ par u' = par u /\ spar u' = spar u /\
  forall k, spc u' k = (if existsb (fun e => String.eqb (fst e) k) kvs then Some true else spc u k) /\
            typ u' k = (if existsb (fun e => String.eqb (fst e) k) kvs then Some FUNCTION_UD else typ u k) /\
            (existsb (fun e => String.eqb (fst e) k) kvs = false -> fn u' k = fn u k).
Proof.
  revert u. induction kvs as [|[a v] kvs IH]; intros u; cbn; [intros [= <-]; auto 8|]. destruct (as_s v) as [s|]; [|discriminate].
  intros H. destruct (IH _ H) as (-> & -> & -> & -> & K). cbn in *. do 4 (split; [reflexivity|]). intro k. destruct (K k) as (-> & -> & F). unfold upd in *.
  rewrite (String.eqb_sym k a) in *. destruct (String.eqb a k) eqn:Ek; cbn in *; destruct (existsb _ kvs); cbn in *; repeat split; try reflexivity; try discriminate; auto.
Qed.
Lemma yget_in k l v : yget k (YMap l) = Some v -> In (k, v) l.
Proof. cbn. destruct (find _ l) as [[a b]|] eqn:F; [|discriminate]. intros [= <-]. apply find_some in F. destruct F as (I & E). cbn in E. apply String.eqb_eq in E. now subst. Qed.
Lemma yget_unique k l v : NoDup (map fst l) -> In (k, v) l -> yget k (YMap l) = Some v.
Proof.
  cbn. induction l as [|[a b] l IH]; [intros _ []|]; intros ND [E|I]; cbn.
  - injection E as -> ->. rewrite String.eqb_refl. reflexivity.
  - cbn in ND. apply NoDup_cons_iff in ND. destruct ND as (N & ND). destruct (String.eqb_spec a k) as [->|]; [|now apply IH].
    exfalso. apply N. change k with (fst (k, v)). now apply in_map.
Qed.
Lemma yget_none k l : yget k (YMap l) = None <-> ~ In k (map fst l).
Proof.
  cbn. split.
  - intros H I. apply in_map_iff in I. destruct I as ([a b] & <- & I). destruct (find _ l) eqn:F; [discriminate|]. apply (find_none _ _ F) in I. cbn in I. now rewrite String.eqb_refl in I.
  - intros N. destruct (find _ l) as [[a b]|] eqn:F; [|reflexivity]. apply find_some in F. destruct F as (I & E). cbn in E. apply String.eqb_eq in E. subst. exfalso. apply N. change k with (fst (k, b)). now apply in_map.
Qed.
Lemma exists_key kvs k : existsb (fun e : string * yaml => String.eqb (fst e) k) kvs = present k (YMap kvs).
Proof. unfold present. cbn. induction kvs as [|[a v] kvs IH]; cbn; [reflexivity|]. destruct (String.eqb a k); [reflexivity|exact IH]. Qed.
Lemma fns_name kvs u u' k v : load_fns as_s kvs u = Some u' -> NoDup (map fst kvs) -> yget k (YMap kvs) = Some v -> fn u' k = as_s v.
Proof.
  intros H ND Y. apply yget_in in Y. revert u H ND Y. induction kvs as [|[a w] kvs IH]; intros u H ND Y; cbn in H; [destruct Y|].
  destruct (as_s w) as [s|] eqn:S; [|discriminate]. cbn in ND. apply NoDup_cons_iff in ND. destruct ND as (N & ND). destruct Y as [E|I].
  - injection E as -> ->. destruct (fns_spec _ _ _ H) as (_ & _ & _ & _ & K). destruct (K k) as (_ & _ & F). rewrite F.
    + cbn. rewrite upd_same. congruence.
    + rewrite exists_key. unfold present. destruct (yget k (YMap kvs)) eqn:Z; [|reflexivity]. exfalso. apply N. apply yget_in in Z. change k with (fst (k, y)). now apply in_map.
  - eapply IH; eauto.
Qed.
Lemma functions_spec y u u' : load_functions y u = Some u' ->
  mem u' = mem u /\ flg u' = flg u /\
  (forall k, spc u' k = (match function_of y k with Some _ => Some true | None => spc u k end) /\
             typ u' k = (match function_of y k with Some _ => Some FUNCTION_UD | None => typ u k end) /\
             (function_of y k = None -> fn u' k = fn u k)) /\
  (forall k v kvs, yget "user_function_name" y = Some (YMap kvs) -> NoDup (map fst kvs) -> function_of y k = Some v -> fn u' k = as_s v).
Proof.
  unfold Input_Model.load_functions, function_of. destruct (yget "user_function_name" y) as [[| | |kvs]|]; try discriminate.
  2:{ intros [= <-]. repeat split; auto; discriminate. }
  destruct (load_fns as_s kvs u) as [u1|] eqn:F; [|discriminate].
  assert (G : forall u2, (match yget "user_function_parameters" y with None => Some u1 | Some (YMap p) => option_map (fun m => mkU (mem u1) (flg u1) (spc u1) (typ u1) (fn u1) m (spar u1)) (read_map (dvec as_d) p sempty) | Some _ => None end) = Some u2 ->
    mem u2 = mem u1 /\ flg u2 = flg u1 /\ spc u2 = spc u1 /\ typ u2 = typ u1 /\ fn u2 = fn u1).
  { intros u2. destruct (yget "user_function_parameters" y) as [[| | |p]|]; try discriminate; [|intros [= <-]; auto]. destruct (read_map _ _ _); [|discriminate]. intros [= <-]; auto. }
  destruct (match yget "user_function_parameters" y with None => _ | Some _ => _ end) as [u2|] eqn:P; [|discriminate]. destruct (G _ eq_refl) as (A1 & A2 & A3 & A4 & A5). clear G.
  intros H. assert (mem u' = mem u2 /\ flg u' = flg u2 /\ spc u' = spc u2 /\ typ u' = typ u2 /\ fn u' = fn u2) as (B1 & B2 & B3 & B4 & B5).
  { destruct (yget "user_function_string_parameters" y) as [[| | |p]|]; try discriminate; [|injection H as <-; auto]. destruct (read_vmap _ _ _); [|discriminate]. injection H as <-; auto. }
  destruct (fns_spec _ _ _ F) as (C1 & C2 & _ & _ & C3). rewrite B1, B2, B3, B4, B5, A1, A2, A3, A4, A5, C1, C2. do 2 (split; [reflexivity|]). split.
  - intro k. destruct (C3 k) as (-> & -> & N). rewrite exists_key in *. unfold present in *. destruct (yget k (YMap kvs)); repeat split; auto; discriminate.
  - intros k v kvs' [= <-] ND Y. eapply fns_name; eauto.
Qed.

(** ** the documented tables are those of the code *)
Definition lookup (k : string) (l : list entry) : option entry := find (fun e => String.eqb (e_key e) k) l.
Definition as_entry (d : doc) (m r : bool) : entry := mkE (d_key d) (d_key d) (d_kind d) (d_mem d) (d_flag d) m r.
Definition hf_entry : entry := entf "heat_flux" KNum "q_" "heatFluxSpec_".
Definition wall_all : list entry := (wall_entries ++ [hf_entry])%list.
Lemma wall_table d : In d wall_doc -> exists m, In (as_entry d m false) wall_all /\ mem wall0 (d_mem d) = Some (d_dflt d).
Proof. intros H. each H; (eexists; split; [unfold as_entry; cbn; repeat (first [left; reflexivity|right])|reflexivity]). Qed.
Lemma inflow_table d : In d inflow_doc -> exists m, In (as_entry d m false) (inflow_entries ++ [ent "external_data" KBool "externalData_"]) /\ mem inflow0 (d_mem d) = Some (d_dflt d).
Proof. intros H. each H; (eexists; split; [unfold as_entry; cbn; repeat (first [left; reflexivity|right])|reflexivity]). Qed.
Lemma open_table d : In d open_doc -> d_key d <> "turbulent_dissipation" -> exists m, In (as_entry d m false) open_entries /\ mem open0 (d_mem d) = Some (d_dflt d).
Proof. intros H N. each H; try (exfalso; apply N; reflexivity); (eexists; split; [unfold as_entry; cbn; repeat (first [left; reflexivity|right])|reflexivity]). Qed.

(** general: a documented entry of a list that is read *)
Lemma doc_value y l u u' d m : load_entries y l u = Some u' -> NoDup (map e_mem l) -> In (as_entry d m false) l -> mem u (d_mem d) = Some (d_dflt d) -> value_ok y u' d.
Proof.
  intros H ND I D. pose proof (entries_mem _ _ _ _ _ H ND I) as E. unfold Input_Spec.value_ok. cbn in E. destruct (yget (d_key d) y) as [v|] eqn:Y.
  - destruct E as (w & q & E1 & E2 & E3). injection E1 as <-. eauto.
  - now rewrite (proj1 E).
Qed.
Lemma wall_parts y u : load_wall y = Some u ->
  exists u1, load_entries y wall_all wall0 = Some u1 /\ load_functions y u1 = Some u /\ yget "specific_dissipation_rate" y = None /\ yget "turbulent_dissipation" y = None.
Proof.
  unfold Input_Model.load_wall, wall_all. rewrite entries_app. destruct (load_entries y wall_entries wall0) as [u0|]; [|discriminate].
  destruct (yget "specific_dissipation_rate" y); [discriminate|]. destruct (yget "turbulent_dissipation" y); [discriminate|]. cbn [Input_Model.load_entries].
  fold hf_entry. destruct (load_entry y hf_entry u0) as [u1|]; [|discriminate]. eauto.
Qed.
(** ** walls *)
Theorem C102_wall_values : forall y u, load_wall y = Some u -> forall d, In d wall_doc -> value_ok y u d.
Proof.
  intros y u H d I. destruct (wall_parts _ _ H) as (u1 & H1 & H2 & _). destruct (wall_table d I) as (m & Im & D).
  assert (V : value_ok y u1 d) by (eapply doc_value; eauto; cbn; nodup).
  unfold Input_Spec.value_ok in *. rewrite (proj1 (functions_spec _ _ _ H2)). exact V.
Qed.
(** the flag of a keyword tells whether it was given; the flag of the emissivity has no value when it was not *)
Theorem C102_wall_flags : forall y u, load_wall y = Some u -> forall d, In d wall_doc -> d_key d <> "emissivity" -> flag_ok y u d.
Proof.
  intros y u H d I Ne. destruct (wall_parts _ _ H) as (u1 & H1 & H2 & _). unfold flag_ok. rewrite (proj1 (proj2 (functions_spec _ _ _ H2))).
  destruct (wall_table d I) as (m & Im & _). destruct (d_flag d) as [f|] eqn:F; [|exact Logic.I].
  assert (ND : NoDup (flags_of wall_all)) by (cbn; nodup).
  rewrite (entries_flag _ _ _ _ _ f H1 ND Im F). cbn [as_entry e_test]. unfold present. destruct (yget (d_key d) y); [reflexivity|].
  each I; try discriminate F; injection F as <-; try reflexivity; exfalso; now apply Ne.
Qed.
Theorem C102_wall_emissivity_flag_refuted :
  ~ (forall y u, load_wall y = Some u -> forall d, In d wall_doc -> flag_ok y u d).
Proof.
  intros H. specialize (H (YMap []) wall0 eq_refl (mkD "emissivity" KNum "emissivity_" (VR 1) (Some "emissSpec_")) ltac:(cbn; repeat (first [left; reflexivity|right]))). discriminate H.
Qed.
(** quantities imposed at a wall: constant, or by a user function, which wins over a constant wherever it stands *)
Theorem C102_wall_quantities : forall y u q, load_wall y = Some u -> In q wall_quantities ->
  (spc u q = Some true <-> (present q y = true \/ function_of y q <> None)) /\
  typ u q = (match function_of y q with Some _ => Some FUNCTION_UD | None => if present q y then Some CONSTANT_UD else None end) /\
  (forall v kvs, yget "user_function_name" y = Some (YMap kvs) -> NoDup (map fst kvs) -> function_of y q = Some v -> fn u q = as_s v).
Proof.
  intros y u q H I. destruct (wall_parts _ _ H) as (u1 & H1 & H2 & _). destruct (functions_spec _ _ _ H2) as (_ & _ & K & N). destruct (K q) as (-> & -> & _).
  destruct (entries_spc _ _ _ _ q H1) as (-> & ->). { intros e Ie Em. each Ie; try discriminate Em; reflexivity. }
  assert (E : existsb (fun e => e_map e && String.eqb (e_key e) q && present q y)%bool wall_all = present q y).
  { clear - I. destruct (present q y) eqn:P. 2:{ induction wall_all as [|e l IH]; cbn; [reflexivity|]. rewrite andb_false_r. exact IH. } each I; reflexivity. }
  rewrite E. split; [|split].
  - destruct (function_of y q) eqn:F; [split; [right; discriminate|reflexivity]|]. destruct (present q y); split; auto; [discriminate|intros [?|?]; congruence].
  - reflexivity.
  - intros v kvs Y ND F. eapply N; eauto.
Qed.
End P.
