(** Error indicators for mesh adaptivity, and the Courant and Reynolds numbers.  Files: SimpleErrorIndicatorElemAlgorithm.C,
    SimpleErrorIndicatorScalarElemAlgorithm.C, PstabErrorIndicatorElemAlgorithm.C, PstabErrorIndicatorEdgeAlgorithm.C,
    LimiterErrorIndicatorElemAlgorithm.C, AssembleCourantReynoldsElemAlgorithm.C, AssembleCourantReynoldsFemAlgorithm.C,
    gas_dynamics/AssembleGasDynamicsCourantReynoldsElemAlgorithm.C.
    Simplifications: real arithmetic; the gathered coordinates and velocities are functions of local node and component, the
    gathered gradients keep the flat layout of the code; what lies behind the end of that array is the unknown function [oob].
    The printed maximum velocity ("tmp srk maxV") is left out. *)
Require Import Reals List Bool Arith.
From Verif Require Import Edge_Model Elem_Model Fem_Model.
Import ListNotations.
Open Scope R_scope.

(** SimpleErrorIndicatorElemAlgorithm.C 121-143: p_dudx, nodesPerElement*nDim*nDim values, gathered from du(node,i,j) *)
Definition gather (npe nu d : nat) (du : nat -> nat -> nat -> R) (oob : nat -> R) (k : nat) : R :=
  if (k <? npe * (nu * d))%nat then du (k / (nu * d))%nat ((k / d) mod nu)%nat (k mod d)%nat else oob k.

(** the options of Realm's error indicator, SimpleErrorIndicatorElemAlgorithm.C 49-60 *)
Inductive eopt := Dudx2 | Vorticity | VorticityDx.
(** lines 161-180, components 0..d-1 of one point: (errorIndicator, dlen) *)
Definition simple_comps (o : eopt) (d : nat) (x : nat -> nat -> R) (D : nat -> R) (il ir : nat) (st : R * R) : R * R :=
  fold_left (fun st i =>
     let dxi := x ir i - x il i in
     let dlen := snd st + dxi*dxi in
     let du2 := sumn d (fun j => (x ir j - x il j) * (D (ir*d*d + i*d + j)%nat + D (il*d*d + i*d + j)%nat)) in
     let dlen := sqrt dlen in
     (match o with Dudx2 => fst st + du2*du2 | _ => fst st end, dlen)) (seq 0 d) st.
(** lines 182-189: the vorticity "at the left node", flat array with row length w and first entry row *)
Definition vorticity (d w : nat) (D : nat -> R) (row : nat) : R :=
  let DU i j := D (row + i*w + j)%nat in
  let v0 := DU 2%nat 1%nat - DU 1%nat 2%nat in let v1 := DU 2%nat 0%nat - DU 0%nat 2%nat in
  let v2 := if Nat.eqb d 3 then DU 1%nat 0%nat - DU 0%nat 1%nat else 0 in
  sqrt (v0*v0 + v1*v1 + v2*v2).
(** lines 145-192, one point *)
Definition simple_point (o : eopt) (m : me) (x : nat -> nat -> R) (D : nat -> R) (ip : nat) (e : R) : R :=
  let d := ndim m in let il := lrL m ip in let ir := lrR m ip in
  let st := simple_comps o d x D il ir (e, 0) in
  match o with Dudx2 => fst st | Vorticity => fst st + vorticity d d D (il*d*d) | VorticityDx => fst st + snd st * vorticity d d D (il*d*d) end.
(** lines 142-205: the value written to error_indicator (the exception below 0 is the boolean) *)
Definition simple_indicator (o : eopt) (m : me) (x : nat -> nat -> R) (D : nat -> R) : R * bool :=
  let e := fold_left (fun e ip => simple_point o m x D ip e) (seq 0 (nscs m)) 0 in
  let e := e / (INR (ndim m) * INR (nscs m)) in
  let e := match o with Dudx2 => sqrt (sqrt e) | _ => sqrt e end in
  (e, if Rlt_dec e 0 then true else false).

(** SimpleErrorIndicatorScalarElemAlgorithm.C 153-218, nUnk_ = 1 (line 54): rows of the flat array start at ni*nUnk_*nDim, entries
    are read at row + i*nUnk_ + j *)
Definition scalar_point (o : eopt) (m : me) (x : nat -> nat -> R) (D : nat -> R) (ip : nat) (e : R) : R :=
  let d := ndim m in let il := lrL m ip in let ir := lrR m ip in
  let dlen := sqrt (sumn d (fun i => (x ir i - x il i) * (x ir i - x il i))) in
  let du2 := sumn d (fun j => (x ir j - x il j) * (D (ir*1*d + 0*1 + j)%nat + D (il*1*d + 0*1 + j)%nat) / 2) in
  match o with Dudx2 => e + du2*du2 | Vorticity => e + vorticity d 1 D (il*1*d) | VorticityDx => e + dlen * vorticity d 1 D (il*1*d) end.
Definition scalar_indicator (o : eopt) (m : me) (x : nat -> nat -> R) (D : nat -> R) : R * bool :=
  let e := fold_left (fun e ip => scalar_point o m x D ip e) (seq 0 (nscs m)) 0 in
  let e := sqrt (e / (1 * INR (nscs m))) in
  (e, if Rlt_dec e 0 then true else false).

(** PstabErrorIndicatorElemAlgorithm.C 57-197; simple: the constructor's simpleGradApproach (scale 0 instead of 1, line 45) *)
Definition pstab_elem (simple : bool) (dt gamma1 : R) (m : me) (p : nat -> R) (G : nat -> nat -> R) : R :=
  let scale := if simple then 0 else 1 in
  let tau := dt/gamma1 in
  sqrt (fold_left (fun e ip =>
     fold_left (fun e j =>
        let dpdx := sumn (npe m) (fun ic => dndx m ip ic j * p ic) in
        let Gp := at_scs m (fun ic => G ic j) ip in
        let t := - tau * (dpdx - Gp * scale) * area m ip j in
        e + t*t) (seq 0 (ndim m)) e) (seq 0 (nscs m)) 0).

(** PstabErrorIndicatorEdgeAlgorithm.C 61-181: the edges of one element; noc: get_noc_usage of the field *)
Definition pstab_one_edge (simple noc : bool) (dt gamma1 : R) (d : nat) (X : nat -> nat -> R) (p : nat -> R) (G : nat -> nat -> R) (e : edge) : R :=
  let scale := if simple then 0 else 1 in
  let nocFac := if noc then 1 else 0 in
  let tau := if Rlt_dec 0 scale then dt/gamma1 else 1 in
  let a := eA e in
  let dx j := X (eR e) j - X (eL e) j in
  let axdx := sumn d (fun j => a j * dx j) in
  let asq := sumn d (fun j => a j * a j) in
  let inv_axdx := 1/axdx in
  fold_left (fun v j =>
     let kxj := a j - asq*inv_axdx*dx j in
     let Gj := (1/2)*(G (eR e) j + G (eL e) j)*scale in
     v + tau*(Gj * a j - kxj*Gj)*nocFac) (seq 0 d) (- tau*(p (eR e) - p (eL e))*asq*inv_axdx).
Definition pstab_edges (simple noc : bool) (dt gamma1 : R) (d : nat) (X : nat -> nat -> R) (p : nat -> R) (G : nat -> nat -> R) (es : list edge) : R :=
  sqrt (fold_left (fun s e => let v := pstab_one_edge simple noc dt gamma1 d X p G e in s + v*v) es 0).

(** LimiterErrorIndicatorElemAlgorithm.C 135-186 (van_leer, lines 202-210, is the function of the edge algorithms, small = 1e-16) *)
Definition limiter_point (m : me) (x u : nat -> nat -> R) (D : nat -> R) (ip : nat) (e : R) : R :=
  let d := ndim m in let il := lrL m ip in let ir := lrR m ip in
  fold_left (fun e i =>
     let duL := sumn d (fun j => (x ir j - x il j) * D (il*d*d + i*d + j)%nat) in
     let duR := sumn d (fun j => (x ir j - x il j) * D (ir*d*d + i*d + j)%nat) in
     let du := u ir i - u il i in
     let limitL := van_leer (2*2*duL - du) du (1/10^16) in
     let limitR := van_leer (2*2*duR - du) du (1/10^16) in
     e + sqrt ((1/2)*(limitL*limitL + limitR*limitR))) (seq 0 d) e.
(** value and whether the exception is thrown *)
Definition limiter_indicator (m : me) (x u : nat -> nat -> R) (D : nat -> R) : R * bool :=
  let e := fold_left (fun e ip => limiter_point m x u D ip e) (seq 0 (nscs m)) 0 in
  let v := (1 + 1/10^8) - e / (INR (ndim m) * INR (nscs m)) in
  (v, if Rlt_dec v 0 then true else false).

(** *** Courant and Reynolds numbers *)
(** nodal data of one element *)
Record cdata := mkCD { cd_x : nat -> nat -> R; cd_u : nat -> nat -> R; cd_rho : nat -> R; cd_mu : nat -> R; cd_c : nat -> R }.
(** AssembleCourantReynoldsElemAlgorithm.C 160-181 (gas: line 188 of the gas version adds the speed of sound): (Courant, Reynolds) *)
Definition ip_cr (gas : bool) (dt : R) (d : nat) (D : cdata) (il ir : nat) : R * R :=
  let udotx := sumn d (fun j => (cd_x D ir j - cd_x D il j) * ((1/2)*(cd_u D ir j + cd_u D il j))) in
  let dxSq := sumn d (fun j => (cd_x D ir j - cd_x D il j) * (cd_x D ir j - cd_x D il j)) in
  let udotx := if gas then Rabs udotx + (1/2)*(cd_c D ir + cd_c D il)*sqrt dxSq else Rabs udotx in
  let diffIp := (1/2)*(cd_mu D il / cd_rho D il + cd_mu D ir / cd_rho D ir) in
  (Rabs (udotx*dt/dxSq), udotx/(diffIp + 1/10^16)).
(** lines 157-188: the element's two numbers *)
Definition elem_cr (gas : bool) (dt : R) (m : me) (D : cdata) : R * R :=
  fold_left (fun st ip => let v := ip_cr gas dt (ndim m) D (lrL m ip) (lrR m ip) in (Rmax (fst st) (fst v), Rmax (snd st) (snd v))) (seq 0 (nscs m)) (-1, -1).
(** maxCR of one rank: updated point by point over the rank's elements *)
Definition rank_cr (gas : bool) (dt : R) (els : list (me * cdata)) : R * R :=
  fold_left (fun st e => fold_left (fun st ip => let v := ip_cr gas dt (ndim (fst e)) (snd e) (lrL (fst e) ip) (lrR (fst e) ip) in
     (Rmax (fst st) (fst v), Rmax (snd st) (snd v))) (seq 0 (nscs (fst e))) st) els (-1, -1).
(** lines 196-208: all_reduce_max over the ranks (at least one), into the realm *)
Definition realm_cr (gas : bool) (dt : R) (ranks : list (list (me * cdata))) : R * R :=
  let l := map (rank_cr gas dt) ranks in
  fold_left (fun a b => (Rmax (fst a) (fst b), Rmax (snd a) (snd b))) (tl l) (hd (-1, -1) l).

(** AssembleCourantReynoldsFemAlgorithm.C 165-215, one Gauss point; gL is gLower from MasterElement::gij *)
Definition fem_cr (dt : R) (m : fem) (gL : nat -> nat -> nat -> R) (D : cdata) (ip : nat) : R * R :=
  let d := f_dim m in
  let scaleFac := if Nat.eqb d 3 then 3 else 2 in
  let u j := sumn (f_npe m) (fun ic => f_N m ip ic * cd_u D ic j) in
  let rho := sumn (f_npe m) (fun ic => f_N m ip ic * cd_rho D ic) in
  let mu := sumn (f_npe m) (fun ic => f_N m ip ic * cd_mu D ic) in
  let uGu := sumn d (fun i => sumn d (fun j => u i * gL ip i j * u j)) in
  let glSq := sumn d (fun i => sumn d (fun j => gL ip i j * gL ip i j)) in
  let diffIp := mu/rho + 1/10^16 in
  (sqrt uGu * dt / 2, 2 * sqrt (uGu / (diffIp*diffIp*glSq/scaleFac))).
Definition fem_elem_cr (dt : R) (m : fem) (gL : nat -> nat -> nat -> R) (D : cdata) : R * R :=
  fold_left (fun st ip => let v := fem_cr dt m gL D ip in (Rmax (fst st) (fst v), Rmax (snd st) (snd v))) (seq 0 (f_ngp m)) (-1, -1).
