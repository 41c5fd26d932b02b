(** * Scratch memory of the element algorithms: requests, budget, views

    Files: src/ScratchViews.C (get_num_scalars_pre_req_data 94-259 and 261-402, fill_pre_req_data 407-475), include/ScratchViews.h
    (create_master_element_views 209-398, fill_master_element_views_new_me 475-580, create_needed_field_views 630-683,
    create_needed_master_element_views 685-704, calculate_shared_mem_bytes_per_thread 731-751), include/SharedMemData.h 25-50 and 61-84,
    include/ElemDataRequests.h 26-51 and 58-77, src/ElemDataRequests.C (add_gathered_nodal_field, add_ip_field).
    Simplifications: sizes are natural numbers (the code uses int); a master element that is absent has zero integration points, as in the code;
    std::set<ELEM_DATA_NEEDED> is a predicate on requests, visited in the order of the enum; a view is its name and its size; the space between
    views that the allocator may add for alignment is not modelled (all doubles; the code adds eight doubles of padding). *)
Require Import List Arith Bool.
Import ListNotations.

(** ElemDataRequests.h 26-45, in the order of the enum *)
Inductive req := FC_AREAV | SCS_AREAV | SCS_FACE_GRAD_OP | SCS_SHIFTED_FACE_GRAD_OP | SCS_GRAD_OP | SCS_SHIFTED_GRAD_OP | SCS_GIJ | SCV_VOLUME
  | SCV_GRAD_OP | SCV_SHIFTED_GRAD_OP | FEM_GRAD_OP | FEM_SHIFTED_GRAD_OP | FEM_DET_J | FEM_NORMAL | FEM_FACE_NORMAL | FEM_FACE_GRAD_OP | FEM_FACE_DET_J | FEM_GIJ.
Definition reqs : list req := [FC_AREAV; SCS_AREAV; SCS_FACE_GRAD_OP; SCS_SHIFTED_FACE_GRAD_OP; SCS_GRAD_OP; SCS_SHIFTED_GRAD_OP; SCS_GIJ; SCV_VOLUME;
  SCV_GRAD_OP; SCV_SHIFTED_GRAD_OP; FEM_GRAD_OP; FEM_SHIFTED_GRAD_OP; FEM_DET_J; FEM_NORMAL; FEM_FACE_NORMAL; FEM_FACE_GRAD_OP; FEM_FACE_DET_J; FEM_GIJ].
(** dimension, nodes per face and element, integration points on face, subcontrol surfaces, subcontrol volumes, finite element *)
Record sizes := mkSz { nD : nat; npf : nat; npe : nat; nF : nat; nS : nat; nV : nat; nM : nat }.
Definition asked (s : req -> bool) (l : list req) : bool := existsb s l.
Definition sum (l : list nat) : nat := fold_right Nat.add 0 l.

(** ** the budget; [ne] is nodesPerEntity, [info] tells the version with ScratchMeInfo (261-402) from the one without (94-259) *)
Definition cost (z : sizes) (ne : nat) (r : req) : nat :=
  match r with
  | FC_AREAV => nD z * nF z | SCS_AREAV => nD z * nS z
  | SCS_FACE_GRAD_OP | SCS_SHIFTED_FACE_GRAD_OP => ne * nF z * nD z
  | SCS_GRAD_OP | SCS_SHIFTED_GRAD_OP => ne * nS z * nD z
  | SCS_GIJ => nD z * nD z * nS z + nD z * nD z * nS z
  | SCV_VOLUME => nV z
  | SCV_GRAD_OP | SCV_SHIFTED_GRAD_OP => ne * nV z * nD z
  | FEM_GRAD_OP | FEM_SHIFTED_GRAD_OP => ne * nM z * nD z
  | FEM_DET_J => 0 | FEM_NORMAL => nD z * nM z
  | FEM_FACE_NORMAL => nD z * nF z | FEM_FACE_GRAD_OP => ne * nF z * nD z | FEM_FACE_DET_J => 0
  | FEM_GIJ => nD z * nD z * nM z + nD z * nD z * nM z
  end.
Definition when (b : bool) (n : nat) : nat := if b then n else 0.
Definition budget (info : bool) (z : sizes) (ne : nat) (s : req -> bool) : nat :=
  sum (map (fun r => when (s r) (cost z ne r)) reqs)
  + when (asked s (FEM_FACE_DET_J :: FEM_FACE_NORMAL :: if info then [FEM_FACE_GRAD_OP] else [])) (ne * nF z * nD z)                          (* needDerivFC *)
  + when (asked s (SCS_FACE_GRAD_OP :: SCS_SHIFTED_FACE_GRAD_OP :: if info then [] else [FEM_FACE_GRAD_OP])) (ne * nF z * nD z)                (* needDerivFCElem *)
  + when (asked s [SCS_GRAD_OP; SCS_SHIFTED_GRAD_OP; SCS_GIJ]) (ne * nS z * nD z)                                                             (* needDeriv *)
  + when (asked s [SCV_GRAD_OP; SCV_SHIFTED_GRAD_OP]) (ne * nV z * nD z)                                                                      (* needDerivScv *)
  + when (asked s [SCS_FACE_GRAD_OP; SCS_SHIFTED_FACE_GRAD_OP; FEM_FACE_GRAD_OP; FEM_FACE_DET_J; FEM_FACE_NORMAL]) (nF z)                      (* needDetjFC *)
  + when (asked s [SCS_GRAD_OP; SCS_SHIFTED_GRAD_OP]) (nS z)                                                                                  (* needDetj *)
  + when (asked s [SCV_GRAD_OP; SCV_SHIFTED_GRAD_OP]) (nV z)                                                                                  (* needDetjScv *)
  + when (asked s [FEM_GRAD_OP; FEM_SHIFTED_GRAD_OP; FEM_DET_J; FEM_NORMAL; FEM_GIJ]) (ne * nM z * nD z)                                       (* needDerivFem *)
  + when (asked s (FEM_GRAD_OP :: FEM_SHIFTED_GRAD_OP :: FEM_DET_J :: if info then [] else [FEM_NORMAL])) (nM z).                              (* needDetjFem *)

(** ** the views; ScratchViews.h 209-398 *)
Inductive vname := Fc_areav | Scs_areav | Dndx_fc_elem | Dndx_shifted_fc_elem | Dndx | Dndx_shifted | GijUpper | GijLower | Scv_volume | Dndx_scv | Dndx_scv_shifted
  | Dndx_fem | Normal_fem | Normal_fc_fem | Deriv_fc | Deriv | Deriv_scv | Deriv_fem | Det_j_fc | Det_j | Det_j_scv | Det_j_fem.
Definition vname_dec (a b : vname) : {a = b} + {a <> b}. Proof. decide equality. Defined.
Definition made (z : sizes) (r : req) : list (vname * nat) :=
  match r with
  | FC_AREAV => [(Fc_areav, nF z * nD z)] | SCS_AREAV => [(Scs_areav, nS z * nD z)]
  | SCS_FACE_GRAD_OP => [(Dndx_fc_elem, nF z * npe z * nD z)] | SCS_SHIFTED_FACE_GRAD_OP => [(Dndx_shifted_fc_elem, nF z * npe z * nD z)]
  | SCS_GRAD_OP => [(Dndx, nS z * npe z * nD z)] | SCS_SHIFTED_GRAD_OP => [(Dndx_shifted, nS z * npe z * nD z)]
  | SCS_GIJ => [(GijUpper, nS z * nD z * nD z); (GijLower, nS z * nD z * nD z)]
  | SCV_VOLUME => [(Scv_volume, nV z)]
  | SCV_GRAD_OP => [(Dndx_scv, nV z * npe z * nD z)] | SCV_SHIFTED_GRAD_OP => [(Dndx_scv_shifted, nV z * npe z * nD z)]
  | FEM_GRAD_OP => [(Dndx_fem, nM z * npe z * nD z)] | FEM_SHIFTED_GRAD_OP => [(Dndx_fem, nM z * npe z * nD z)]
  | FEM_DET_J => [] | FEM_NORMAL => [(Normal_fem, nM z * nD z)]
  | FEM_FACE_NORMAL => [(Normal_fc_fem, nF z * nD z)] | FEM_FACE_GRAD_OP => [(Dndx_fc_elem, nF z * npe z * nD z)] | FEM_FACE_DET_J => []
  | FEM_GIJ => [(GijUpper, nM z * nD z * nD z); (GijLower, nM z * nD z * nD z)]
  end.
(** the integration points a request needs: STK_ThrowRequireMsg(num..Ip > 0) *)
Definition needs (z : sizes) (r : req) : nat :=
  match r with
  | FC_AREAV | SCS_FACE_GRAD_OP | SCS_SHIFTED_FACE_GRAD_OP | FEM_FACE_NORMAL | FEM_FACE_GRAD_OP | FEM_FACE_DET_J => nF z
  | SCS_AREAV | SCS_GRAD_OP | SCS_SHIFTED_GRAD_OP | SCS_GIJ => nS z
  | SCV_VOLUME | SCV_GRAD_OP | SCV_SHIFTED_GRAD_OP => nV z
  | FEM_GRAD_OP | FEM_SHIFTED_GRAD_OP | FEM_DET_J | FEM_NORMAL | FEM_GIJ => nM z
  end.
Definition onev (b : bool) (v : vname) (n : nat) : list (vname * nat) := if b then [(v, n)] else [].
Definition views (z : sizes) (s : req -> bool) : list (vname * nat) :=
  flat_map (fun r => if s r then made z r else []) reqs
  ++ onev (asked s [FEM_FACE_NORMAL; FEM_FACE_DET_J]) Deriv_fc (nF z * npf z * nD z)
  ++ onev (asked s [SCS_GRAD_OP; SCS_SHIFTED_GRAD_OP; SCS_GIJ]) Deriv (nS z * npe z * nD z)
  ++ onev (asked s [SCV_GRAD_OP; SCV_SHIFTED_GRAD_OP]) Deriv_scv (nV z * npe z * nD z)
  ++ onev (asked s [SCS_FACE_GRAD_OP; SCS_SHIFTED_FACE_GRAD_OP; FEM_FACE_GRAD_OP; FEM_FACE_DET_J]) Det_j_fc (nF z)
  ++ onev (asked s [SCS_GRAD_OP; SCS_SHIFTED_GRAD_OP]) Det_j (nS z)
  ++ onev (asked s [SCV_GRAD_OP; SCV_SHIFTED_GRAD_OP]) Det_j_scv (nV z)
  ++ onev (asked s [FEM_GRAD_OP; FEM_SHIFTED_GRAD_OP; FEM_DET_J; FEM_NORMAL; FEM_GIJ]) Deriv_fem (nM z * npe z * nD z)
  ++ onev (asked s [FEM_GRAD_OP; FEM_SHIFTED_GRAD_OP; FEM_DET_J]) Det_j_fem (nM z).
(** 389-395: the two checks for conflicting requests ask for numFemIp > 0 *)
Definition create (z : sizes) (s : req -> bool) : option (list (vname * nat)) :=
  if forallb (fun r => implb (s r) (Nat.ltb 0 (needs z r))) reqs
     && implb (s FEM_GRAD_OP && s FEM_SHIFTED_GRAD_OP) (Nat.ltb 0 (nM z))
     && implb (asked s [SCS_GRAD_OP; SCS_SHIFTED_GRAD_OP; SCS_GIJ] && asked s [FEM_GRAD_OP; FEM_SHIFTED_GRAD_OP; FEM_DET_J; FEM_NORMAL; FEM_GIJ]) (Nat.ltb 0 (nM z))
  then Some (views z s) else None.
(** fill_master_element_views_new_me 475-580: the views each request writes, results first *)
Definition results (r : req) : list vname :=
  match r with
  | FC_AREAV => [] (* throws *) | SCS_AREAV => [Scs_areav] | SCS_FACE_GRAD_OP => [Dndx_fc_elem] | SCS_SHIFTED_FACE_GRAD_OP => [Dndx_shifted_fc_elem]
  | SCS_GRAD_OP => [Dndx] | SCS_SHIFTED_GRAD_OP => [Dndx_shifted] | SCS_GIJ => [GijUpper; GijLower] | SCV_VOLUME => [Scv_volume]
  | SCV_GRAD_OP => [Dndx_scv] | SCV_SHIFTED_GRAD_OP => [Dndx_scv_shifted] | FEM_GRAD_OP => [Dndx_fem] | FEM_SHIFTED_GRAD_OP => [Dndx_fem]
  | FEM_DET_J => [Det_j_fem] | FEM_NORMAL => [Normal_fem] | FEM_FACE_NORMAL => [Normal_fc_fem] | FEM_FACE_GRAD_OP => [Dndx_fc_elem] | FEM_FACE_DET_J => [Det_j_fc]
  | FEM_GIJ => [GijUpper; GijLower]
  end.
Definition work (r : req) : list vname :=
  match r with
  | SCS_GRAD_OP | SCS_SHIFTED_GRAD_OP | SCS_GIJ => [Deriv] | SCV_GRAD_OP | SCV_SHIFTED_GRAD_OP => [Deriv_scv]
  | FEM_GRAD_OP | FEM_SHIFTED_GRAD_OP => [Deriv_fem; Det_j_fem] | FEM_DET_J | FEM_NORMAL | FEM_GIJ => [Deriv_fem]
  | FEM_FACE_NORMAL | FEM_FACE_DET_J => [Deriv_fc] | FEM_FACE_GRAD_OP => [Det_j_fc]
  | _ => []
  end.
(** the request whose data view v holds after filling: the last one in enum order *)
Definition holds (s : req -> bool) (v : vname) : option req :=
  fold_left (fun a r => if s r && existsb (fun w => if vname_dec v w then true else false) (results r) then Some r else a) reqs None.

(** ** fields; ElemDataRequests.C and ScratchViews.h 630-683 *)
Inductive frank := Node | Other.
Record finfo := mkF { f_id : nat; f_rank : frank; f_d1 : nat; f_d2 : nat }.
(** add_gathered_nodal_field / add_ip_field: [checks2] is false for add_ip_field with one size, which compares only the first *)
Definition add_field (checks2 : bool) (f : finfo) (l : list finfo) : option (list finfo) :=
  match find (fun g => Nat.eqb (f_id g) (f_id f)) l with
  | None => Some (l ++ [f])
  | Some g => if Nat.eqb (f_d1 g) (f_d1 f) && implb checks2 (Nat.eqb (f_d2 g) (f_d2 f)) then Some l else None
  end.
(** 107-121: what the budget counts for a field *)
Definition field_cost (ne : nat) (f : finfo) : nat :=
  (match f_rank f with Node => ne | Other => 1 end) * (if Nat.ltb 1 (f_d2 f) then f_d1 f * f_d2 f else f_d1 f).
(** 646-672: extents of the view made for a field *)
Definition field_view (n : nat) (f : finfo) : list nat :=
  match f_rank f with
  | Other => if Nat.eqb (f_d2 f) 0 then [f_d1 f] else [f_d1 f; f_d2 f]
  | Node => if Nat.eqb (f_d2 f) 0 then (if Nat.eqb (f_d1 f) 1 then [n] else [n; f_d1 f]) else [n; f_d1 f; f_d2 f]
  end.
(** fill_pre_req_data 424-458: rank of the view the gather asks for *)
Definition gather_rank (f : finfo) : nat :=
  match f_rank f with
  | Other => if Nat.ltb 1 (f_d2 f) then 2 else 1
  | Node => if Nat.ltb 1 (f_d2 f) then 3 else if Nat.eqb (f_d1 f) 1 then 1 else 2
  end.
Definition prod (l : list nat) : nat := fold_right Nat.mul 1 l.

(** ** totals *)
(** get_num_scalars_pre_req_data: fields, the request sets of all coordinate fields, eight for padding *)
Definition num_scalars (info : bool) (z : sizes) (ne : nat) (fs : list finfo) (ss : list (req -> bool)) : nat :=
  sum (map (field_cost ne) fs) + sum (map (budget info z ne) ss) + 8.
(** the doubles one ScratchViews takes *)
Definition taken (z : sizes) (n : nat) (fs : list finfo) (ss : list (req -> bool)) : nat :=
  sum (map (fun f => prod (field_view n f)) fs) + sum (map (fun s => sum (map snd (views z s))) ss).
(** calculate_shared_mem_bytes_per_thread 731-738 and 741-751; a double has 8 bytes, an int 4 *)
Definition bytes_given (simd lhs rhs ids scalars : nat) : nat := ((rhs + lhs) * 8 + 2 * ids * 4 + 8 * scalars) * (2 * simd).
(** SharedMemData 25-50 / SharedMemData_FaceElem 61-84: simd views, one scalar copy per lane, both systems, two integer arrays *)
Definition bytes_used (simd n taken : nat) : nat :=
  8 * simd * taken + simd * (8 * taken) + 8 * simd * (n + n * n) + 8 * (n + n * n) + 4 * n + 4 * n.
(** views placed one after the other: (offset, size) *)
Fixpoint place (o : nat) (l : list nat) : list (nat * nat) := match l with [] => [] | n :: r => (o, n) :: place (o + n) r end.
