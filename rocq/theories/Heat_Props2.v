(** C89: heat-transfer data of a coupled wall. *)
Require Import Reals List Bool Lra Lia Arith.
From Verif Require Import RUtil Edge_Model Edge_Proofs Elem_Model Elem_Spec Elem_Proofs Rad_Quad_Proofs3.
From Verif Require Force_Props.
From Verif Require Import Vof_Model Vof_Spec Vof_Props4 Aux_Model Aux_Props Heat_Model Heat_Props.
Import ListNotations.
Open Scope R_scope.

(** what the boundary points of node n add up to *)
Definition node_total (pick : wc -> R) (l : list wc) (n : nat) : R := lsum (fun c => if Nat.eqb n (w_node c) then pick c else 0) l.
Lemma acc_total pick l n : acc_at pick l n = node_total pick l n.
Proof.
  unfold acc_at, node_total. assert (G : forall l a, fold_left (fun a c => if Nat.eqb n (w_node c) then a + pick c else a) l a = a + lsum (fun c => if Nat.eqb n (w_node c) then pick c else 0) l).
  { clear. induction l as [|c l IH]; intros a; [unfold lsum; cbn; ring|]. cbn [fold_left]. rewrite IH. unfold lsum. cbn [map fold_right]. destruct (Nat.eqb _ _); ring. }
  rewrite G. ring.
Qed.
Lemma total_le p q l n : (forall c, In c l -> w_node c = n -> p c <= q c) -> node_total p l n <= node_total q l n.
Proof.
  unfold node_total, lsum. induction l as [|c l IH]; intros H; cbn [map fold_right]; [lra|]. 
  assert (fold_right Rplus 0 (map (fun c => if Nat.eqb n (w_node c) then p c else 0) l) <= fold_right Rplus 0 (map (fun c => if Nat.eqb n (w_node c) then q c else 0) l)) by (apply IH; intros; apply H; [right|]; assumption).
  destruct (Nat.eqb_spec n (w_node c)) as [E|]; [|lra]. pose proof (H c (or_introl eq_refl) (eq_sym E)). lra.
Qed.
Lemma total_ext p q l n : (forall c, In c l -> w_node c = n -> p c = q c) -> node_total p l n = node_total q l n.
Proof. intros H. apply Rle_antisym; apply total_le; intros c Hc E; rewrite (H c Hc E); lra. Qed.
Lemma total_scal p k l n : node_total (fun c => k * p c) l n = k * node_total p l n.
Proof. unfold node_total. rewrite <- lsum_scal. apply lsum_ext. intros. destruct (Nat.eqb _ _); ring. Qed.
Lemma total_plus p q l n : node_total (fun c => p c + q c) l n = node_total p l n + node_total q l n.
Proof. unfold node_total. rewrite <- lsum_plus. apply lsum_ext. intros. destruct (Nat.eqb _ _); ring. Qed.
Lemma total_pos p l n : (exists c, In c l /\ w_node c = n) -> (forall c, In c l -> w_node c = n -> 0 < p c) -> 0 < node_total p l n.
Proof.
  intros (c & Hc & E) H. induction l as [|x l IH]; [destruct Hc|].
  assert (P : 0 <= node_total p l n).
  { replace 0 with (node_total (fun _ => 0) l n) by (unfold node_total; apply lsum_zero; intros; destruct (Nat.eqb _ _); reflexivity). apply total_le. intros y Hy Ey. left. apply H; [right|]; assumption. }
  change (node_total p (x :: l) n) with ((if Nat.eqb n (w_node x) then p x else 0) + node_total p l n).
  destruct (Nat.eqb_spec n (w_node x)) as [Ex|Nx].
  - pose proof (H x (or_introl eq_refl) (eq_sym Ex)). lra.
  - rewrite Rplus_0_l. apply IH; [destruct Hc as [->|]; [congruence|assumption]|intros; apply H; [right|]; assumption].
Qed.

(** every point splits its flux into the reference part and the wall part *)
Definition split_ok (l : list wc) : Prop := forall c, In c l -> w_q c = w_tref c + w_h c.
Lemma on_off_sum f k : fst (on_off f) k + snd (on_off f) k = 1.
Proof.
  unfold on_off. assert (G : forall l (st : (nat -> R)*(nat -> R)), fst st k + snd st k = 1 ->
    let r := fold_left (fun st ip => let nn := vf_near f ip in ((fun k => if Nat.eqb k nn then 1 else fst st k), (fun k => if Nat.eqb k nn then 0 else snd st k))) l st in fst r k + snd r k = 1).
  { induction l as [|x l IH]; intros st H; [exact H|]. cbn [fold_left]. apply IH. cbn [fst snd]. destruct (Nat.eqb k (vf_near f x)); [ring|exact H]. }
  apply G. cbn. ring.
Qed.
Lemma on_spec f k : fst (on_off f) k = if existsb (fun ip => Nat.eqb k (vf_near f ip)) (seq 0 (vf_nip f)) then 1 else 0.
Proof.
  unfold on_off. generalize (seq 0 (vf_nip f)). intros l.
  assert (G : forall l (st : (nat -> R)*(nat -> R)),
    fst (fold_left (fun st ip => let nn := vf_near f ip in ((fun k => if Nat.eqb k nn then 1 else fst st k), (fun k => if Nat.eqb k nn then 0 else snd st k))) l st) k
    = if existsb (fun ip => Nat.eqb k (vf_near f ip)) l then 1 else fst st k).
  { clear. induction l as [|x l IH]; intros st; [reflexivity|]. cbn [fold_left existsb]. rewrite IH. cbn [fst]. destruct (existsb _ l); [rewrite orb_true_r; reflexivity|]. rewrite orb_false_r. reflexivity. }
  rewrite G. reflexivity.
Qed.
Lemma elem_split f conn dt lam rho cp T ip : let c := heat_elem f conn dt lam rho cp T ip in w_q c = w_tref c + w_h c.
Proof.
  unfold heat_elem. cbn [w_q w_tref w_h]. set (k := at_face f lam ip).
  rewrite <- Ropp_plus_distr, <- Rmult_plus_distr_l. do 2 f_equal. rewrite <- sumn_plus. apply sumn_ext. intros ic _. rewrite <- sumn_plus. apply sumn_ext. intros j _.
  pose proof (on_off_sum f ic) as OS. rewrite <- Rmult_plus_distr_l, (Rplus_comm (snd (on_off f) ic)), OS. ring.
Qed.
Theorem C89_points_split_their_flux : forall f conn dt lam rho cp T, split_ok (heat_elem_face f conn dt lam rho cp T).
Proof. intros f conn dt lam rho cp T c Hc. apply in_map_iff in Hc. destruct Hc as (ip & <- & _). apply elem_split. Qed.
Theorem C89_edge_points_split_their_flux : forall d noc dt n A xL xR tL tR dh rho lam cp,
  split_ok [heat_edge d noc dt n A xL xR tL tR dh rho lam cp].
Proof. intros d noc dt n A xL xR tL tR dh rho lam cp c [<-|[]]. unfold heat_edge. cbn [w_q w_tref w_h]. ring. Qed.
(** the reported data satisfy Newton's law of cooling: flux = htc * (reference temperature - wall temperature) *)
Theorem C89_newtons_law : forall l T n htc tref q al, split_ok l -> wall_node l T n = Some (htc, tref, q, al) -> q = htc * (tref - T).
Proof.
  intros l T n htc tref q al HS H. unfold wall_node in H. rewrite !acc_total in H. set (A := node_total w_area l n) in *.
  unfold divo in H. destruct (Req_EM_T A 0) as [|HA]; [discriminate H|]. destruct (Req_EM_T T 0) as [|HT]; [discriminate H|].
  destruct (Req_EM_T (A * (- node_total w_h l n / A / T)) 0) as [|HH]; [discriminate H|]. inversion H; subst. clear H.
  assert (E : node_total w_q l n = node_total w_tref l n + node_total w_h l n).
  { rewrite <- total_plus. apply total_ext. intros c Hc _. apply HS. assumption. }
  fold A. rewrite E. assert (node_total w_h l n <> 0). { intros Z. apply HH. rewrite Z. unfold Rdiv. ring. }
  field. repeat split; assumption.
Qed.
(** and the flux times the wall area is what the points bring *)
Theorem C89_flux_times_area : forall l T n htc tref q al, wall_node l T n = Some (htc, tref, q, al) ->
  q * node_total w_area l n = node_total w_q l n /\ al * node_total w_area l n = node_total w_alpha l n /\
  htc * T * node_total w_area l n = - node_total w_h l n /\ htc * tref * node_total w_area l n = node_total w_tref l n.
Proof.
  intros l T n htc tref q al H. unfold wall_node in H. rewrite !acc_total in H. set (A := node_total w_area l n) in *.
  unfold divo in H. destruct (Req_EM_T A 0) as [|HA]; [discriminate H|]. destruct (Req_EM_T T 0) as [|HT]; [discriminate H|].
  destruct (Req_EM_T (A * (- node_total w_h l n / A / T)) 0) as [|HH]; [discriminate H|]. inversion H; subst. clear H. fold A.
  assert (node_total w_h l n <> 0). { intros Z. apply HH. rewrite Z. unfold Rdiv. ring. }
  repeat split; field; repeat split; assumption.
Qed.
(** a wall node at zero (of the temperature scale in use) has no answer, although the flux is defined *)
Theorem C89_zero_temperature_refuted : exists l n, 0 < node_total w_area l n /\ split_ok l /\ wall_node l 0 n = None.
Proof.
  exists [mkWc 0 1 1 0 1 1], 0%nat. split; [unfold node_total, lsum; cbn; lra|]. split; [intros c [<-|[]]; cbn; ring|].
  unfold wall_node, divo. destruct (Req_EM_T _ 0); [reflexivity|]. destruct (Req_EM_T 0 0); [reflexivity|contradiction].
Qed.

(* ------------------------------------------------------------------ element form: Fourier's law *)
Definition elem_grad_ok (f : vface) : Prop := forall ip j, (ip < vf_nip f)%nat -> (j < vf_dim f)%nat -> sumn (vf_npe f) (fun ic => vf_dn f ip ic j) = 0.
Theorem C89_elem_point_flux : forall f conn dt lam rho cp T ip,
  w_q (heat_elem f conn dt lam rho cp T ip) = - (at_face f lam ip * dotn (vf_dim f) (grad_at (vf_npe f) (vf_dn f) T ip) (vf_A f ip)).
Proof.
  intros. unfold heat_elem. cbn [w_q]. do 2 f_equal. rewrite sumn_swap. unfold dotn, grad_at. apply sumn_ext. intros j _. rewrite <- sumn_scal_r. apply sumn_ext. intros; ring.
Qed.
(** total heat leaving through a face: what its nodes receive together *)
Theorem C89_elem_total_heat : forall f conn dt lam rho cp T,
  lsum w_q (heat_elem_face f conn dt lam rho cp T) = - sumn (vf_nip f) (fun ip => at_face f lam ip * dotn (vf_dim f) (grad_at (vf_npe f) (vf_dn f) T ip) (vf_A f ip)).
Proof.
  intros. unfold heat_elem_face. rewrite lsum_map_seq, <- sumn_opp. apply sumn_ext. intros. apply C89_elem_point_flux.
Qed.
(** linear temperature: exact conductive flux *)
Theorem C89_elem_linear_temperature : forall f conn dt lam rho cp T (x : nat -> nat -> R) t0 G l Tn n htc tref q al,
  (forall ip j k, (ip < vf_nip f)%nat -> (j < vf_dim f)%nat -> (k < vf_dim f)%nat -> sumn (vf_npe f) (fun ic => vf_dn f ip ic j * x ic k) = if Nat.eqb j k then 1 else 0) ->
  elem_grad_ok f -> face_unity f ->
  (forall ic, (ic < vf_npe f)%nat -> T ic = t0 + dotn (vf_dim f) G (x ic)) ->
  (forall ic, (ic < vf_npf f)%nat -> lam ic = l) ->
  wall_node (heat_elem_face f conn dt lam rho cp T) Tn n = Some (htc, tref, q, al) ->
  q * sumn (vf_nip f) (fun ip => if Nat.eqb n (conn (vf_near f ip)) then vf_amag f ip else 0)
  = - l * sumn (vf_nip f) (fun ip => if Nat.eqb n (conn (vf_near f ip)) then dotn (vf_dim f) G (vf_A f ip) else 0).
Proof.
  intros f conn dt lam rho cp T x t0 G l Tn n htc tref q al HX HG HU HT HL H. destruct (C89_flux_times_area _ _ _ _ _ _ _ H) as (Q & _).
  unfold node_total, heat_elem_face in Q. rewrite !lsum_map_seq in Q.
  assert (EA : sumn (vf_nip f) (fun ip => if Nat.eqb n (conn (vf_near f ip)) then vf_amag f ip else 0)
     = sumn (vf_nip f) (fun k => if Nat.eqb n (w_node (heat_elem f conn dt lam rho cp T k)) then w_area (heat_elem f conn dt lam rho cp T k) else 0)) by reflexivity.
  rewrite EA, Q, <- sumn_scal. apply sumn_ext. intros ip Hip. change (w_node (heat_elem f conn dt lam rho cp T ip)) with (conn (vf_near f ip)).
  destruct (Nat.eqb _ _); [|ring]. rewrite C89_elem_point_flux.
  assert (EL : at_face f lam ip = l) by (unfold at_face; rewrite (sumn_ext _ _ (fun ic => vf_N f ip ic * l)) by (intros; rewrite HL by assumption; reflexivity); rewrite sumn_scal_r, HU by assumption; ring).
  rewrite EL. rewrite <- Ropp_mult_distr_l. do 2 f_equal. unfold dotn. apply sumn_ext. intros j Hj. f_equal. unfold grad_at.
  rewrite (sumn_ext (vf_npe f) _ (fun ic => t0 * vf_dn f ip ic j + sumn (vf_dim f) (fun k => vf_dn f ip ic j * x ic k * G k))).
  - rewrite sumn_plus, sumn_scal, HG, sumn_swap by assumption.
    rewrite (sumn_ext (vf_dim f) _ (fun k => dl k j * G k)).
    + rewrite (sumn_dl (vf_dim f) j G) by assumption. ring.
    + intros k Hk. rewrite sumn_scal_r, HX by assumption. unfold dl. rewrite (Nat.eqb_sym k j). reflexivity.
  - intros ic Hic. rewrite HT by assumption. unfold dotn. rewrite Rmult_plus_distr_l, <- sumn_scal. f_equal; [ring|]. apply sumn_ext. intros; ring.
Qed.
(** wall at one temperature: the coefficient is conductivity over the element's normal length, whatever the temperatures *)
Theorem C89_elem_coefficient : forall f conn dt lam rho cp T Tw n htc tref q al, Tw <> 0 ->
  (forall ic, (ic < vf_npe f)%nat -> existsb (fun ip => Nat.eqb ic (vf_near f ip)) (seq 0 (vf_nip f)) = true -> T ic = Tw) ->
  wall_node (heat_elem_face f conn dt lam rho cp T) Tw n = Some (htc, tref, q, al) ->
  htc * sumn (vf_nip f) (fun ip => if Nat.eqb n (conn (vf_near f ip)) then vf_amag f ip else 0)
  = sumn (vf_nip f) (fun ip => if Nat.eqb n (conn (vf_near f ip)) then
      at_face f lam ip * sumn (vf_npe f) (fun ic => if existsb (fun ip => Nat.eqb ic (vf_near f ip)) (seq 0 (vf_nip f)) then dotn (vf_dim f) (vf_dn f ip ic) (vf_A f ip) else 0) else 0).
Proof.
  intros f conn dt lam rho cp T Tw n htc tref q al H0 HT H. destruct (C89_flux_times_area _ _ _ _ _ _ _ H) as (_ & _ & Q & _).
  unfold node_total, heat_elem_face in Q. rewrite !lsum_map_seq in Q.
  apply (Rmult_eq_reg_l Tw); [|assumption].
  match goal with |- Tw * (htc * ?A) = Tw * ?B => assert (E1 : htc * Tw * A = Tw * B) end; [|lra].
  etransitivity; [exact Q|]. rewrite <- sumn_opp, <- sumn_scal. apply sumn_ext. intros ip Hip. change (w_node (heat_elem f conn dt lam rho cp T ip)) with (conn (vf_near f ip)).
  destruct (Nat.eqb _ _); [|ring]. unfold heat_elem. cbn [w_h]. rewrite Ropp_involutive. rewrite (Rmult_comm Tw), Rmult_assoc. f_equal. rewrite <- sumn_scal_r. apply sumn_ext. intros ic Hic.
  rewrite on_spec. destruct (existsb (fun ip0 => Nat.eqb ic (vf_near f ip0)) (seq 0 (vf_nip f))) eqn:EX.
  - unfold dotn. rewrite <- sumn_scal_r. apply sumn_ext. intros j _. rewrite (HT ic Hic EX). ring.
  - rewrite sumn_zero by (intros; ring). ring.
Qed.

(* ------------------------------------------------------------------ edge form *)
Record epoint := mkEp { p_node : nat; p_A : nat -> R; p_xL : nat -> R; p_xR : nat -> R; p_tL : R; p_dh : nat -> R; p_rho : R; p_lam : R; p_cp : R }.
Definition edge_list (d : nat) (noc dt : R) (T : nat -> R) (l : list epoint) : list wc :=
  map (fun p => heat_edge d noc dt (p_node p) (p_A p) (p_xL p) (p_xR p) (p_tL p) (T (p_node p)) (p_dh p) (p_rho p) (p_lam p) (p_cp p)) l.
(** the opposing node lies inside: the outward area has a positive component along the edge *)
Definition epoint_ok (d : nat) (p : epoint) : Prop := 0 < p_lam p /\ 0 < sumn d (fun j => p_A p j * p_A p j) /\ 0 < sumn d (fun j => p_A p j * (p_xR p j - p_xL p j)).
Lemma node_total_map {X} (g : X -> wc) pick l n : node_total pick (map g l) n = lsum (fun x => if Nat.eqb n (w_node (g x)) then pick (g x) else 0) l.
Proof. unfold node_total, lsum. rewrite map_map. reflexivity. Qed.
Theorem C89_edge_coefficient_and_reference : forall d dt T l n, T n <> 0 -> (forall p, In p l -> epoint_ok d p) -> (exists p, In p l /\ p_node p = n) ->
  exists htc tref q al, wall_node (edge_list d 0 dt T l) (T n) n = Some (htc, tref, q, al) /\ 0 < htc /\
  forall lo hi, (forall p, In p l -> p_node p = n -> lo <= p_tL p <= hi) -> lo <= tref <= hi.
Proof.
  intros d dt T l n HT HP (p0 & Hp0 & En).
  set (w := fun p : epoint => p_lam p * sumn d (fun j => p_A p j * p_A p j) * / sumn d (fun j => p_A p j * (p_xR p j - p_xL p j))).
  assert (Pw : forall p, In p l -> 0 < w p) by (intros p Hp; destruct (HP p Hp) as (? & ? & ?); unfold w; repeat apply Rmult_lt_0_compat; try assumption; apply Rinv_0_lt_compat; assumption).
  set (sel := fun (g : epoint -> R) => lsum (fun p => if Nat.eqb n (p_node p) then g p else 0) l).
  assert (POS : forall g, (forall p, In p l -> 0 < g p) -> 0 < sel g).
  { intros g Hg. unfold sel. clear - Hp0 En Hg. induction l as [|x l IH]; [destruct Hp0|].
    assert (N : 0 <= lsum (fun p => if Nat.eqb n (p_node p) then g p else 0) l).
    { clear - Hg. assert (H : forall p, In p l -> 0 < g p) by (intros; apply Hg; right; assumption). clear Hg. unfold lsum. induction l as [|y l IH]; cbn [map fold_right]; [lra|].
      assert (0 <= fold_right Rplus 0 (map (fun p => if Nat.eqb n (p_node p) then g p else 0) l)) by (apply IH; intros; apply H; right; assumption). pose proof (H y (or_introl eq_refl)). destruct (Nat.eqb _ _); lra. }
    change (0 < (if Nat.eqb n (p_node x) then g x else 0) + lsum (fun p => if Nat.eqb n (p_node p) then g p else 0) l).
    destruct Hp0 as [->|Hp0]; [rewrite En, Nat.eqb_refl; pose proof (Hg p0 (or_introl eq_refl)); lra|].
    assert (0 < lsum (fun p => if Nat.eqb n (p_node p) then g p else 0) l) by (apply IH; [assumption|intros; apply Hg; right; assumption]).
    pose proof (Hg x (or_introl eq_refl)). destruct (Nat.eqb _ _); lra. }
  assert (EA : node_total w_area (edge_list d 0 dt T l) n = sel (fun p => sqrt (sumn d (fun j => p_A p j * p_A p j)))) by (unfold edge_list; rewrite node_total_map; reflexivity).
  assert (PA : 0 < node_total w_area (edge_list d 0 dt T l) n) by (rewrite EA; apply POS; intros p Hp; apply sqrt_lt_R0; apply (HP p Hp)).
  assert (EH : node_total w_h (edge_list d 0 dt T l) n = - T n * sel w).
  { unfold edge_list, sel. rewrite node_total_map, <- lsum_scal. apply lsum_ext. intros p Hp. unfold heat_edge at 1. cbn [w_node]. destruct (Nat.eqb_spec n (p_node p)) as [->|]; [|ring].
    unfold heat_edge. cbn [w_h]. unfold w, Rdiv. ring. }
  assert (ET : node_total w_tref (edge_list d 0 dt T l) n = sel (fun p => w p * p_tL p)).
  { unfold edge_list, sel. rewrite node_total_map. apply lsum_ext. intros p Hp. unfold heat_edge at 1. cbn [w_node]. destruct (Nat.eqb _ _); [|ring].
    unfold heat_edge. cbn [w_tref]. unfold w, Rdiv. ring. }
  pose proof (POS w Pw) as PW. unfold wall_node. rewrite !acc_total. set (A := node_total w_area (edge_list d 0 dt T l) n) in *.
  rewrite (divo_ok _ A) by lra. rewrite divo_ok by assumption.
  assert (HH : - node_total w_h (edge_list d 0 dt T l) n / A / T n = sel w / A) by (rewrite EH; field; split; [lra|assumption]).
  assert (PH : 0 < sel w / A) by (apply Rmult_lt_0_compat; [assumption|apply Rinv_0_lt_compat; assumption]).
  rewrite HH. rewrite divo_ok; [|apply Rmult_integral_contrapositive; split; lra]. rewrite !divo_ok by lra.
  eexists _, _, _, _. split; [reflexivity|]. split; [assumption|]. intros lo hi HB. rewrite ET.
  replace (A * (sel w / A)) with (sel w) by (field; lra).
  assert (B : lo * sel w <= sel (fun p => w p * p_tL p) <= hi * sel w).
  { unfold sel. rewrite <- !lsum_scal. split; apply Force_Props.lsum_le; intros p Hp; (destruct (Nat.eqb_spec n (p_node p)) as [E|]; [|lra]); destruct (HB p Hp (eq_sym E)); pose proof (Pw p Hp); nra. }
  split; [apply Rle_div_r|apply Rle_div_l]; lra.
Qed.
(** linear temperature with its gradient: the exact flux is - lam G.A; without correction the edge flux misses
    lam G.k, k the part of the area vector across the edge; the correction is subtracted where it should be added,
    so switching it on doubles the error instead of removing it *)
Definition skew (d : nat) (A xL xR : nat -> R) (j : nat) : R :=
  A j - sumn d (fun j => A j * A j) / sumn d (fun j => A j * (xR j - xL j)) * (xR j - xL j).
Theorem C89_edge_linear_flux : forall d noc dt n A xL xR t0 (G dh : nat -> R) rho lam cp, sumn d (fun j => A j * (xR j - xL j)) <> 0 -> cp <> 0 ->
  (forall j, (j < d)%nat -> dh j = cp * G j) ->
  w_q (heat_edge d noc dt n A xL xR (t0 + dotn d G xL) (t0 + dotn d G xR) dh rho lam cp) = - (lam * dotn d G A) + (1 + noc) * (lam * dotn d G (skew d A xL xR)).
Proof.
  intros d noc dt n A xL xR t0 G dh rho lam cp HX Hc HD. unfold heat_edge. cbn [w_q]. unfold skew. set (asq := sumn d (fun j => A j * A j)). set (axdx := sumn d (fun j => A j * (xR j - xL j))) in *.
  rewrite (sumn_ext d _ (fun j => (- lam) * (G j * A j) + (lam * (asq * (1/axdx))) * (G j * xR j - G j * xL j))) by (intros j Hj; rewrite HD by assumption; field; split; assumption).
  rewrite sumn_plus, !sumn_scal, sumn_minus. unfold dotn.
  rewrite (sumn_ext d (fun j => G j * (A j - asq/axdx*(xR j - xL j))) (fun j => G j * A j - (asq/axdx) * (G j * xR j - G j * xL j))) by (intros; ring).
  rewrite sumn_minus, sumn_scal, sumn_minus. field. assumption.
Qed.
Theorem C89_edge_orthogonal_exact : forall d noc dt n A xL xR t0 (G dh : nat -> R) rho lam cp, sumn d (fun j => A j * (xR j - xL j)) <> 0 -> cp <> 0 ->
  (forall j, (j < d)%nat -> dh j = cp * G j) -> (forall j, (j < d)%nat -> skew d A xL xR j = 0) ->
  w_q (heat_edge d noc dt n A xL xR (t0 + dotn d G xL) (t0 + dotn d G xR) dh rho lam cp) = - (lam * dotn d G A).
Proof.
  intros. rewrite C89_edge_linear_flux by assumption. unfold dotn at 2. rewrite sumn_zero by (intros j Hj; rewrite H2 by assumption; ring). ring.
Qed.
Theorem C89_edge_correction_exact_refuted : exists d dt n A xL xR t0 (G dh : nat -> R) rho lam cp, sumn d (fun j => A j * (xR j - xL j)) <> 0 /\ cp <> 0 /\ 0 < lam /\
  (forall j, (j < d)%nat -> dh j = cp * G j) /\
  w_q (heat_edge d 1 dt n A xL xR (t0 + dotn d G xL) (t0 + dotn d G xR) dh rho lam cp) <> - (lam * dotn d G A).
Proof.
  exists 2%nat, 1, 0%nat, (fun j => if Nat.eqb j 0 then 1 else 0), (fun _ => 0), (fun _ => 1), 0, (fun j => if Nat.eqb j 0 then 0 else 1), (fun j => 1 * (if Nat.eqb j 0 then 0 else 1)), 1, 1, 1.
  assert (X : sumn 2 (fun j => (if Nat.eqb j 0 then 1 else 0) * (1 - 0)) = 1) by (unfold sumn; cbn [seq fold_left Nat.eqb]; ring).
  split; [rewrite X; lra|]. split; [lra|]. split; [lra|]. split; [reflexivity|].
  rewrite C89_edge_linear_flux; [|rewrite X; lra|lra|reflexivity]. unfold dotn, skew. rewrite X. unfold sumn. cbn [seq fold_left Nat.eqb]. lra.
Qed.

(* ------------------------------------------------------------------ coupling parameter *)
Theorem C89_coupling_closed_form : forall kappa h chi, 0 <= chi -> coupling kappa h chi = kappa/h * sqrt (chi*(chi+2)).
Proof.
  intros kappa h chi H. unfold coupling. cbv zeta. set (r := sqrt (chi*(chi+2))).
  assert (R2 : r*r = chi*(chi+2)) by (apply sqrt_sqrt; nra). assert (R0 : 0 <= r) by apply sqrt_pos.
  assert (E : 1/(1 + chi + r) = 1 + chi - r). { apply (Rmult_eq_reg_r (1 + chi + r)); [|lra]. unfold Rdiv. rewrite Rmult_assoc, Rinv_l by lra. nra. }
  rewrite E. unfold Rdiv. ring.
Qed.
Theorem C89_coupling_nonneg_and_monotone : forall kappa h chi chi', 0 <= kappa -> 0 < h -> 0 <= chi <= chi' -> 0 <= coupling kappa h chi <= coupling kappa h chi'.
Proof.
  intros kappa h chi chi' Hk Hh H. rewrite !C89_coupling_closed_form by lra.
  assert (P : 0 <= kappa/h) by (apply Rmult_le_pos; [assumption|left; apply Rinv_0_lt_compat; assumption]).
  split; [apply Rmult_le_pos; [assumption|apply sqrt_pos]|]. apply Rmult_le_compat_l; [assumption|]. apply sqrt_le_1; nra.
Qed.
(** between the transient limit and the steady one *)
Theorem C89_coupling_bounds : forall kappa h chi, 0 <= kappa -> 0 < h -> 0 <= chi -> kappa/h*chi <= coupling kappa h chi <= kappa/h*(chi + 1).
Proof.
  intros kappa h chi Hk Hh H. rewrite C89_coupling_closed_form by lra.
  assert (P : 0 <= kappa/h) by (apply Rmult_le_pos; [assumption|left; apply Rinv_0_lt_compat; assumption]).
  assert (R2 : sqrt (chi*(chi+2)) * sqrt (chi*(chi+2)) = chi*(chi+2)) by (apply sqrt_sqrt; nra). pose proof (sqrt_pos (chi*(chi+2))) as R0.
  split; apply Rmult_le_compat_l; try assumption; nra.
Qed.

(* ------------------------------------------------------------------ a concrete wall *)
(** bottom side of the unit square split as one quadrilateral: nodes 0,1 on the wall, unit conductivity, T = 10 at the wall, 30 above *)
Definition ex_wall : vface := mkVF 2 2 4 2 (fun ip => ip) (fun ic => ic) (fun ip ic => if Nat.eqb ip ic then 3/4 else 1/4)
  (fun ip ic j => match j with 0%nat => match ic with 0%nat => -1 | 1%nat => 1 | _ => 0 end
                 | _ => match ic with 0%nat => - (3/4 - INR ip/2) | 1%nat => - (1/4 + INR ip/2) | 2%nat => 1/4 + INR ip/2 | _ => 3/4 - INR ip/2 end end)
  (fun _ _ _ => 0) (fun _ j => match j with 0%nat => 0 | _ => - (1/2) end).
Lemma ex_wall_unity : face_unity ex_wall /\ elem_grad_ok ex_wall /\ own_face ex_wall.
Proof.
  repeat split.
  - intros ip Hip. cbn [vf_nip vf_npf vf_N ex_wall] in *. destruct ip as [|[|ip]]; [| |lia]; unfold sumn; cbn [seq fold_left Nat.eqb]; field.
  - intros ip j Hip Hj. cbn [vf_nip vf_npe vf_dn vf_dim ex_wall] in *. destruct ip as [|[|ip]]; [| |lia]; (destruct j as [|[|j]]; [| |lia]); unfold sumn; cbn [seq fold_left INR]; field.
  - intros ip Hip. cbn in *. lia.
Qed.
Definition ex_T (ic : nat) : R := match ic with 0%nat | 1%nat => 10 | _ => 30 end.
Lemma amag_ex ip : vf_amag ex_wall ip = 1/2.
Proof.
  unfold vf_amag. cbn [vf_dim vf_A ex_wall]. unfold sumn. cbn [seq fold_left]. replace (0 + 0*0 + - (1/2) * - (1/2)) with ((1/2)*(1/2)) by field. apply sqrt_square. lra.
Qed.
Theorem C89_wall_example : exists al, wall_node (heat_elem_face ex_wall (fun k => k) 1 (fun _ => 1) (fun _ => 1) (fun _ => 1) ex_T) 10 0 = Some (1, 30, 20, al).
Proof.
  unfold wall_node. rewrite !acc_total. unfold heat_elem_face. rewrite !node_total_map. cbn [vf_nip ex_wall seq]. unfold lsum. cbn [map fold_right w_node heat_elem vf_near ex_wall Nat.eqb].
  unfold heat_elem. cbn [w_area w_h w_tref w_q w_alpha]. rewrite !amag_ex. unfold on_off. cbn [vf_nip ex_wall seq fold_left fst snd vf_near].
  set (al := coupling _ _ _).
  assert (K : at_face ex_wall (fun _ => 1) 0 = 1) by (apply at_face_const; [apply ex_wall_unity|cbn; lia]).
  exists ((al * (1/2) + (0 + 0)) / (1/2 + (0 + 0))).
  rewrite K. unfold sumn. cbn [vf_npe vf_dim vf_nip ex_wall seq fold_left vf_dn vf_A existsb vf_near Nat.eqb orb fst snd on_off ex_T INR].
  match goal with |- context[divo ?a ?b] => assert (E1 : divo a b = Some 10) end.
  { rewrite divo_ok by lra. f_equal. field. }
  rewrite E1. assert (E2 : divo 10 10 = Some 1) by (rewrite divo_ok by lra; f_equal; field). rewrite E2.
  match goal with |- context[divo ?a ((1/2 + (0 + 0)) * 1)] => assert (E3 : divo a ((1/2 + (0 + 0)) * 1) = Some 30) end.
  { rewrite divo_ok by lra. f_equal. field. }
  rewrite E3. match goal with |- context[divo ?a (1/2 + (0 + 0))] => assert (E4 : divo a (1/2 + (0 + 0)) = Some 20) end.
  { rewrite divo_ok by lra. f_equal. field. }
  rewrite E4. rewrite divo_ok by lra. reflexivity.
Qed.
