(** Explicit filtering and the residual it reports.  File: ExplicitFiltering.C; FieldFunctions.C (field_normalize).
    Simplifications: real arithmetic; stk's coarse_search is the list of all pairs of closed boxes with a common point, in any
    order, of which a rank sees those whose node box or element box it owns; entity handles are identifiers; 2-D points have
    third coordinate 0 (stk's Point is zero-initialised).  std::sort is insertion sort (no two keys are equal). *)
Require Import Reals List Bool Arith.
From Verif Require Import Edge_Model Elem_Model Vof_Model2 Motion_Model Cut_Model.
Import ListNotations.
Open Scope R_scope.

(** an element of the search parts: identifier, owning rank, nodes, sub-control volumes *)
Record felem := mkFEl { fl_id : nat; fl_proc : nat; fl_nodes : list nat; fl_scv : list R }.
(** the search parts: nodes with their owners, positions, elements of all ranks *)
Record fmesh := mkFM { fm_nodes : list (nat * nat); fm_x : nat -> v3; fm_els : list felem }.

(** lines 690-727: box of the filter's size centred at the node *)
Definition filter_box (size p : v3) : box :=
  (V3 (vx p - (1/2)*vx size) (vy p - (1/2)*vy size) (vz p - (1/2)*vz size), V3 (vx p + (1/2)*vx size) (vy p + (1/2)*vy size) (vz p + (1/2)*vz size)).
(** lines 583-619 *)
Definition felem_box (M : fmesh) (e : felem) : box := elem_box (map (fm_x M) (fl_nodes e)).
(** coarse_search, line 634: every pair whose boxes meet *)
Definition all_hits (M : fmesh) (size : v3) : list skey :=
  flat_map (fun n => flat_map (fun e => if boxes_meet (filter_box size (fm_x M (fst n))) (felem_box M e)
       then [mkK (fst n) (snd n) (fl_id e) (fl_proc e)] else []) (fm_els M)) (fm_nodes M).
(** what rank r gets of the search result [hits] *)
Definition seen_by (r : nat) (hits : list skey) : list skey :=
  filter (fun k => (Nat.eqb (k_ptproc k) r || Nat.eqb (k_elproc k) r)%bool) hits.
(** lines 638-666: sorted, then the elements this rank owns that a point elsewhere needs *)
Definition elems_to_ghost (r : nat) (keys : list skey) : list (nat * nat) :=
  fold_left (fun l k => if (Nat.eqb (k_elproc k) r && negb (Nat.eqb (k_ptproc k) r))%bool then l ++ [(k_el k, k_ptproc k)] else l) (sort_keys keys) [].
(** lines 778-806: the map of rank r, node -> elements; [here] tells which elements exist on this rank; None: the exception *)
Definition complete (r : nat) (here : nat -> bool) (keys : list skey) : option (nat -> list nat) :=
  fold_left (fun st k => match st with None => None | Some f =>
      if Nat.eqb r (k_ptproc k)
      then if here (k_el k) then Some (fun n => if Nat.eqb n (k_pt k) then f n ++ [k_el k] else f n) else None
      else Some f end) (sort_keys keys) (Some (fun _ => [])).
(** change_ghosting, line 742: after it a rank holds its own elements and those sent to it by the others *)
Definition exists_on (M : fmesh) (hits : list skey) (ranks : list nat) (r e : nat) : bool :=
  (existsb (fun el => Nat.eqb (fl_id el) e && Nat.eqb (fl_proc el) r) (fm_els M)
   || existsb (fun s => existsb (fun p => Nat.eqb (fst p) e && Nat.eqb (snd p) r) (elems_to_ghost s (seen_by s hits))) ranks)%bool.

(** lines 871-893 compute_volume *)
Definition elem_volume (e : felem) : R := fold_left Rplus (fl_scv e) 0.
(** lines 898-917 increment_elem_mean, one component of the field *)
Definition elem_mean (q : nat -> R) (e : felem) (volume : R) : R :=
  let invScaling := 1 / INR (length (fl_nodes e)) in
  fold_left (fun a n => a + q n * invScaling * volume) (fl_nodes e) 0.
(** lines 386-436: one node of the map: filter volume and the assembled field *)
Definition assemble_filter (q : nat -> R) (elems : list felem) : R * R :=
  fold_left (fun st e => let v := elem_volume e in (fst st + v, snd st + elem_mean q e v)) elems (0, 0).
(** lines 438-483: parallel_sum over the ranks that hold the node (the owner's value, 0 on the others), periodic update (sum over
    the node's periodic images), normalisation on the owner, copy to the sharers *)
Definition filtered (q : nat -> R) (images : list (list felem)) (others : nat) : R :=
  let st := fold_left (fun st els => (fst st + (fst (assemble_filter q els) + 0 * INR others), snd st + (snd (assemble_filter q els) + 0 * INR others))) images (0, 0) in
  let inv_eF := 1 / fst st in snd st * inv_eF.

(** *** residual, lines 922-1240 *)
Record rfields := mkRF { r_u1 : nat -> nat -> R; r_u0 : nat -> nat -> R; r_um : nat -> nat -> R;
  r_rho1 : nat -> R; r_rho0 : nat -> R; r_rhom : nat -> R; r_mu : nat -> R; r_p : nat -> R; r_G : nat -> nat -> R;
  r_g : nat -> R; r_rhoRef : R; r_divU : R }.
(** lines 1123-1199: what is multiplied with the volume at point ip, component i (ncFac = 1) *)
Definition residual_ip (t : dts) (F : rfields) (e : velem) (ip i : nat) : R :=
  let m := ve_me e in let d := ndim m in
  let nd := ve_node e in
  let N := Nv m ip in let dn := ve_dv e ip in
  let interp := fun q : nat -> R => sumn (npe m) (fun ic => N ic * q (nd ic)) in
  let rhoNp1Ip := interp (r_rho1 F) in let rhoNIp := interp (r_rho0 F) in let rhoNm1Ip := interp (r_rhom F) in
  let u1 := fun j => interp (fun n => r_u1 F n j) in
  let u0 := fun j => interp (fun n => r_u0 F n j) in
  let um := fun j => interp (fun n => r_um F n j) in
  let dpdxIp := fun j => sumn (npe m) (fun ic => r_p F (nd ic) * dn ic j) in
  let divU := sumn (npe m) (fun ic => sumn d (fun j => r_u1 F (nd ic) j * dn ic j)) in
  let dFdxCont := sumn (npe m) (fun ic => sumn d (fun j => r_rho1 F (nd ic) * r_u1 F (nd ic) j * dn ic j)) in
  let contRes := (ga1 t * rhoNp1Ip + ga2 t * rhoNIp + ga3 t * rhoNm1Ip) / dt t + dFdxCont in
  let dFdxAdv := sumn (npe m) (fun ic => sumn d (fun j => r_rho1 F (nd ic) * r_u1 F (nd ic) j * r_u1 F (nd ic) i * dn ic j)) in
  let dFdxDiff := sumn (npe m) (fun ic => sumn d (fun j =>
      r_mu F (nd ic) * (r_G F (nd ic) (i*d+j)%nat + r_G F (nd ic) (j*d+i)%nat - 2/3 * divU * (if Nat.eqb i j then 1 else 0) * r_divU F) * dn ic j)) in
  let time := (ga1 t * rhoNp1Ip * u1 i + ga2 t * rhoNIp * u0 i + ga3 t * rhoNm1Ip * um i) / dt t in
  let buoyancy := (rhoNp1Ip - r_rhoRef F) * r_g F i in
  time + dFdxAdv - dFdxDiff + dpdxIp i - buoyancy - 1 * contRes * u1 i.
(** lines 1107-1216: element residual, the volume being p_scvol[nn] with nn = ipNodeMap[ip]; scatter with minus sign *)
Definition residual_elem (t : dts) (F : rfields) (R0 : nat -> nat -> R) (e : velem) : nat -> nat -> R :=
  let m := ve_me e in
  let P := loop (nscv m) (fun ip P => acc2 (nearest m ip) (fun i => residual_ip t F e ip i * vol m (nearest m ip)) P) (fun _ _ => 0) in
  loop (npe m) (fun ni R => acc2 (ve_node e ni) (fun i => - P ni i) R) R0.
Definition residual (t : dts) (F : rfields) (normalize : bool) (V : nat -> R) (es : list velem) : nat -> nat -> R :=
  let R := fold_left (residual_elem t F) es (fun _ _ => 0) in
  if normalize then fun a i => R a i * (1 / V a) else R.
