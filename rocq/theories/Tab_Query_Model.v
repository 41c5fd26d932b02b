(** Lookups in a tabulated property with input conversion.  Files: tabular_props/HDF5Table.C,
    tabular_props/Converter.C (HStarConverter).
    Simplifications: reading the HDF5 file is left out: a table is what the file describes; the spline is
    any function of the lookup values; converters are any functions of their inputs; a read outside an
    array gives 0; the log of clipped queries is a list sorted as the std::set is (most severe first). *)
Require Import Reals List PeanoNat Bool.
From Coq Require String.
From Verif Require Import Edge_Model Tab_Spline_Model Tab_Spline2_Model.
Import ListNotations.
Open Scope R_scope.
Notation string := String.string.
Notation string_dec := String.string_dec.

Record converter := mkConv { cv_name : string; cv_inputs : list string; cv_query : list R -> R }.
(** what the file holds (read_hdf5_table) and the names the user gave *)
Record table := mkTable { tb_names : list string; tb_convs : list converter; tb_user : list string;
  tb_min : list R; tb_max : list R; tb_log : list bool; tb_spline : list R -> R }.

(** HDF5Table.C:195-207: findix *)
Fixpoint findix (l : list string) (s : string) : option nat :=
  match l with
  | [] => None
  | a :: m => if string_dec a s then Some O else option_map S (findix m s)
  end.
Definition erase {A} (l : list A) (k : nat) : list A := firstn k l ++ skipn (S k) l.

(** the members the wiring fills *)
Record wiring := mkWiring { w_names : list string; w_direct : list nat; w_conv : list nat; w_convIn : list (list nat); w_index : list nat; w_dim : nat }.

(** HDF5Table.C:86-130: one converter: its output is looked up in the list of inputs (input_names() is a
    reference to that list, so the position is one in the list as it is then), plucked out, and the inputs
    it needs and that are missing are appended *)
Definition add_missing (l : list string) (s : string) : list string := match findix l s with Some _ => l | None => l ++ [s] end.
Definition wire_conv (st : option (list string * list nat * list nat)) (c : converter) : option (list string * list nat * list nat) :=
  match st with
  | None => None
  | Some (names, direct, conv) =>
    match findix names (cv_name c) with
    | None => None
    | Some idx => Some (fold_left add_missing (cv_inputs c) (erase names idx), erase direct idx, conv ++ [idx])
    end
  end.
Definition position (l : list string) (s : string) : nat := match findix l s with Some k => k | None => 0 end.
(** HDF5Table.C:169-181: where in the user's list each needed input is *)
Definition user_index (user names : list string) : option (list nat) := all_some (map (findix user) names).
(** HDF5Table.C:72-185: update_input_mapping; None is the exception *)
Definition update_input_mapping (t : table) : option wiring :=
  match fold_left wire_conv (tb_convs t) (Some (tb_names t, seq 0 (length (tb_names t)), [])) with
  | None => None
  | Some (names, direct, conv) =>
    if Nat.eqb (length names) (length (tb_user t)) then
      match user_index (tb_user t) names with
      | Some ix => Some (mkWiring names direct conv (map (fun c => map (position names) (cv_inputs c)) (tb_convs t)) ix (length names))
      | None => None
      end
    else None
  end.

Definition at_n (l : list nat) (k : nat) : nat := nth k l 0%nat.
(** HDF5Table.C:212-236: the lookup values *)
Definition fill_direct (inputs : list R) (ix : list nat) (buf : list R) : list R :=
  fold_left (fun b i => set_at b i (at_ inputs (at_n ix i))) (seq 0 (length ix)) buf.
Definition fill_known (inputs : list R) (direct : list nat) (buf : list R) : list R :=
  fold_left (fun b i => set_at b (at_n direct i) (at_ inputs i)) (seq 0 (length direct)) buf.
Definition fill_conv (cs : list converter) (w : wiring) (inputs : list R) (buf : list R) : list R :=
  fold_left (fun b i => set_at b (at_n (w_conv w) i)
      (cv_query (nth i cs (mkConv String.EmptyString [] (fun _ => 0))) (map (at_ inputs) (nth i (w_convIn w) []))))
    (seq 0 (length cs)) buf.
Definition lookup_values (t : table) (w : wiring) (inputs buf : list R) : list R :=
  match tb_convs t with
  | [] => fill_direct inputs (w_index w) buf
  | _ => fill_conv (tb_convs t) w inputs (fill_known inputs (w_direct w) buf)
  end.
(** HDF5Table.C:238-256: one lookup value, clipped and put on a log scale *)
Definition clip_low (x mn : R) : R := if Rlt_dec x mn then mn else x.
Definition clip_high (x mx : R) : R := if Rlt_dec mx x then mx else x.
Definition checked (t : table) (buf : list R) (i : nat) : R :=
  let x := clip_high (clip_low (at_ buf i) (at_ (tb_min t) i)) (at_ (tb_max t) i) in
  if nth i (tb_log t) false then ln (Rmax x (1 / 10 ^ 16)) else x.
Definition is_clipped (t : table) (buf : list R) (i : nat) : bool :=
  (if Rlt_dec (at_ buf i) (at_ (tb_min t) i) then true else false)
  || (if Rlt_dec (at_ (tb_max t) i) (clip_low (at_ buf i) (at_ (tb_min t) i)) then true else false).

(** HDF5Table.C:350-376: the log of clipped queries *)
Record event := mkEvent { ev_sev : R; ev_values : list R }.
Definition severity (t : table) (values : list R) : R :=
  fold_left (fun sev i =>
      let v := at_ values i in let mn := at_ (tb_min t) i in let mx := at_ (tb_max t) i in
      if Rlt_dec v mn then sev * (1 + (mn - v) / (mx - mn))
      else if Rlt_dec mx v then sev * (1 + (v - mx) / (mx - mn)) else sev)
    (seq 0 (length (tb_min t))) 1.
(** std::set::insert with the order "greater severity first": an event as severe as one in the set is
    not inserted *)
Fixpoint insert_event (e : event) (l : list event) : list event :=
  match l with
  | [] => [e]
  | a :: m => if Rlt_dec (ev_sev a) (ev_sev e) then e :: l
              else if Rlt_dec (ev_sev e) (ev_sev a) then a :: insert_event e m else l
  end.
Definition log_event (size : nat) (e : event) (l : list event) : list event :=
  let l' := insert_event e l in if Nat.ltb size (length l') then removelast l' else l'.

(** the mutable members of a table *)
Record tstate := mkTState { ts_buf : list R; ts_clipped : nat; ts_log : list event; ts_size : nat }.
Definition resize (l : list R) (n : nat) : list R := map (at_ l) (seq 0 n).
(** HDF5Table.C:209-271: query *)
Definition query (t : table) (w : wiring) (s : tstate) (inputs : list R) : R * tstate :=
  let buf := lookup_values t w inputs (ts_buf s) in
  let v := tb_spline t (map (checked t buf) (seq 0 (w_dim w))) in
  if existsb (is_clipped t buf) (seq 0 (w_dim w)) then
    (v, mkTState buf (S (ts_clipped s))
          (if Nat.ltb 0 (ts_size s) then log_event (ts_size s) (mkEvent (severity t buf) buf) (ts_log s) else ts_log s) (ts_size s))
  else (v, mkTState buf (ts_clipped s) (ts_log s) (ts_size s)).
(** HDF5Table.C:29-30 and 150-152: as constructed: ten log entries, buffer as long as the inputs *)
Definition initial (w : wiring) : tstate := mkTState (repeat 0 (w_dim w)) 0 [] 10.
(** HDF5Table.C:313-317 is set_clipping_log_size; 343-348 clear_clipping_log *)
Definition set_log_size (s : tstate) (n : nat) : tstate := mkTState (ts_buf s) (ts_clipped s) (ts_log s) n.
Definition clear_log (s : tstate) : tstate := mkTState (ts_buf s) 0 [] (ts_size s).
Definition queries (t : table) (w : wiring) (s : tstate) (qs : list (list R)) : tstate :=
  fold_left (fun s q => snd (query t w s q)) qs s.

(** Converter.C:203-207 and 298-301: the tables inside the Chi and Gamma converters are built by the
    default constructor and read_hdf5_table: their wiring is never computed *)
Definition nested_wiring (dim : nat) : wiring := mkWiring [] [] [] [] [] dim.

(** Converter.C:473-486: HStarConverter::augmented_mixfrac *)
Definition aug_step (st : list R * R) (z : R) : list R * R := let m := Rmin z (snd st) in (fst st ++ [m], snd st - m).
Definition augmented_mixfrac (zs : list R) : list R := let st := fold_left aug_step zs ([], 1) in fst st ++ [snd st].
(** Converter.C:487-504: mixture_property *)
Definition mixture_property (z p : list R) : R := fold_left (fun a i => a + at_ z i * at_ p i) (seq 0 (length z)) 0.
(** Converter.C:371-424: HStarConverter::query *)
Definition hstar_query (refMin : R) (a streamMin zs : list R) (hStar : R) : R :=
  let zAug := augmented_mixfrac zs in
  let aZ := mixture_property zAug a in
  if Rlt_dec (1 / 10 ^ 16) (Rabs aZ) then refMin + (hStar - mixture_property zAug streamMin) / aZ else refMin.
