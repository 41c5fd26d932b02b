(** * Hybrid turbulence stress, element sources of turbulent kinetic energy, diffusion along edges

    Files: src/kernel/MomentumHybridTurbElemKernel.C (execute, 86-205), src/kernel/TurbKineticEnergySSTDESSrcElemKernel.C (execute, 106-195),
    src/kernel/TurbKineticEnergyKsgsDesignOrderSrcElemKernel.C (execute, 72-170), src/AssembleScalarEdgeDiffSolverAlgorithm.C (execute, 60-205).
    Simplifications: as in Elem_Model and Edge_Model (real arithmetic, one lane, gathered fields as functions of the local node, master-element
    data as parameters); cbrt x is x^(1/3) on positive numbers. *)
Require Import Reals List Bool.
From Verif Require Import Edge_Model Elem_Model Turb_Model.
Import ListNotations.
Open Scope R_scope.

(** ** MomentumHybridTurbElemKernel.C *)
(** 113-146: nodal fields; [mt ic i j] is tensor_turbulent_viscosity *)
Record hyb := mkHyb { h_rho : nat -> R; h_tke : nat -> R; h_alpha : nat -> R; h_mut : nat -> nat -> nat -> R }.
Definition mut_ip (m : me) (f : hyb) (ip i j : nat) : R := sumn (npe m) (fun ic => Ns m ip ic * h_mut f ic i j).
(** 153-155 *)
Definition tke_stress (m : me) (f : hyb) (ip i : nat) : R :=
  2/3 * at_scs m (h_alpha f) ip * at_scs m (h_rho f) ip * at_scs m (h_tke f) ip * area m ip i.
(** 167-174 and 179-184 *)
Definition hyb_fac (m : me) (al : R) (M : nat -> nat -> R) (ip ic r j : nat) : R :=
  sumn (ndim m) (fun k => - M r k * dndx m ip ic k * area m ip j) * al.
(** 148-203: one node of the element *)
Definition hyb_node (m : me) (f : hyb) (u : nat -> R) (ip ic : nat) (s0 : esys) : esys :=
  let d := ndim m in let il := (lrL m ip * d)%nat in let ir := (lrR m ip * d)%nat in let icN := (ic*d)%nat in
  let al := at_scs m (h_alpha f) ip in let M := mut_ip m f ip in
  loop d (fun i s =>
    let tk := tke_stress m f ip i in
    let indexL := (il+i)%nat in let indexR := (ir+i)%nat in
    let '(s, riC) := loop d (fun j st =>
        let '(s, acc) := st in
        let uj := u (icN+j)%nat in
        let acc := acc + hyb_fac m al M ip ic j j in
        let f_j := hyb_fac m al M ip ic i j in
        let s := addL indexL (icN+j)%nat f_j s in
        let s := addL indexR (icN+j)%nat (- f_j) s in
        let s := addB indexL (- (f_j*uj)) s in
        let s := addB indexR (f_j*uj) s in
        (s, acc)) (s, 0) in
    let s := addL indexL (icN+i)%nat riC s in
    let s := addL indexR (icN+i)%nat (- riC) s in
    let ui := u (icN+i)%nat in
    let s := addB indexL (- (riC*ui + tk)) s in
    addB indexR (riC*ui + tk) s) s0.
Definition momentum_hybrid (m : me) (f : hyb) (u : nat -> R) (s0 : esys) : esys :=
  loop (nscs m) (fun ip s => loop (npe m) (fun ic s => hyb_node m f u ip ic s) s) s0.

(** ** sources of turbulent kinetic energy in an element *)
(** what both kernels do with the point values: rhs (nearest) += S scV; lhs (nearest, ic) += N fac scV *)
Definition tke_source (m : me) (S fac : nat -> R) (s0 : esys) : esys :=
  loop (nscv m) (fun ip s =>
    let nn := nearest m ip in
    let s := addB nn (S ip * vol m ip) s in
    loop (npe m) (fun ic s => addL nn ic (Nv m ip ic * fac ip * vol m ip) s) s) s0.
(** the velocity gradient at a volume point; [Gv ip ic j] is dndx_scv *)
Definition grad_scv (m : me) (Gv : nat -> nat -> nat -> R) (u : nat -> nat -> R) (ip i j : nat) : R :=
  sumn (npe m) (fun ic => Gv ip ic j * u ic i).
(** TurbKineticEnergySSTDESSrcElemKernel.C 139-193 *)
Record des := mkDes { e_ratio : R; e_bs : R; e_kw : R; e_ke : R }.
Record tkf := mkTkf { t_rho : nat -> R; t_k : nat -> R; t_sdr : nat -> R; t_mut : nat -> R; t_len : nat -> R; t_f1 : nat -> R; t_u : nat -> nat -> R }.
Definition des_fac (c : des) (m : me) (f : tkf) (ip : nat) : R :=
  at_scv m (t_rho f) ip * sqrt (at_scv m (t_k f) ip)
  / l_des (e_bs c) (e_kw c) (e_ke c) (at_scv m (t_f1 f) ip) (at_scv m (t_k f) ip) (at_scv m (t_sdr f) ip) (at_scv m (t_len f) ip).
Definition des_src (c : des) (m : me) (Gv : nat -> nat -> nat -> R) (f : tkf) (ip : nat) : R :=
  let Dk := des_fac c m f ip * at_scv m (t_k f) ip in
  Rmin (prod2 (ndim m) (grad_scv m Gv (t_u f) ip) * at_scv m (t_mut f) ip) (e_ratio c * Dk) - Dk.
Definition tke_des_elem (c : des) (m : me) (Gv : nat -> nat -> nat -> R) (f : tkf) (s0 : esys) : esys :=
  tke_source m (des_src c m Gv f) (des_fac c m f) s0.
(** TurbKineticEnergyKsgsDesignOrderSrcElemKernel.C 101-168; [q_lr] is lrksgsfac_ *)
Record ksf := mkKsf { q_ratio : R; q_lr : R; q_rho : nat -> R; q_k : nat -> R; q_mut : nat -> R; q_dnv : nat -> R; q_ce : nat -> R; q_mu : nat -> R; q_u : nat -> nat -> R }.
Definition cut (x : R) : R := Rmax x 0.
Definition ks_fac (m : me) (f : ksf) (ip : nat) : R :=
  let k := cut (at_scv m (q_k f) ip) in let V := cut (at_scv m (q_dnv f) ip) in
  if Nat.eqb (ndim m) 2 then at_scv m (q_ce f) ip * cut (at_scv m (q_rho f) ip) * sqrt (k/V)
  else at_scv m (q_ce f) ip * cut (at_scv m (q_rho f) ip) * sqrt k / cpow V (1/3).
Definition dsqrtk (m : me) (Gv : nat -> nat -> nat -> R) (f : ksf) (ip i : nat) : R := sumn (npe m) (fun ic => Gv ip ic i * sqrt (q_k f ic)).
Definition ks_dk (m : me) (Gv : nat -> nat -> nat -> R) (f : ksf) (ip : nat) : R :=
  ks_fac m f ip * cut (at_scv m (q_k f) ip) + q_lr f * 2 * at_scv m (q_mu f) ip * sumn (ndim m) (fun i => dsqrtk m Gv f ip i * dsqrtk m Gv f ip i).
Definition ks_src (m : me) (Gv : nat -> nat -> nat -> R) (f : ksf) (ip : nat) : R :=
  Rmin (prod2 (ndim m) (grad_scv m Gv (q_u f) ip) * cut (at_scv m (q_mut f) ip)) (q_ratio f * ks_dk m Gv f ip) - ks_dk m Gv f ip.
Definition tke_ksgs_elem (m : me) (Gv : nat -> nat -> nat -> R) (f : ksf) (s0 : esys) : esys :=
  tke_source m (ks_src m Gv f) (fun ip => 3/2 * ks_fac m f ip) s0.

(** ** AssembleScalarEdgeDiffSolverAlgorithm.C 150-198 *)
Definition edge_diff (n : nat) (noc : bool) (x dq : nat -> vec) (q mu : nat -> R) (e : edge) : edge_sys :=
  let visc := (1/2)*(mu (eL e) + mu (eR e)) in
  let axdx := sumn n (fun j => eA e j * (x (eR e) j - x (eL e) j)) in
  let asq := sumn n (fun j => eA e j * eA e j) in
  let inv := 1/axdx in
  let nonOrth := sumn n (fun j => - visc * (eA e j - asq*inv*(x (eR e) j - x (eL e) j)) * ((1/2)*(dq (eL e) j + dq (eR e) j))) in
  let lhsfac := - visc*asq*inv in
  let flux := lhsfac*(q (eR e) - q (eL e)) + nonOrth * (if noc then 1 else 0) in
  mkSys (- lhsfac) lhsfac lhsfac (- lhsfac) (- flux) flux.
