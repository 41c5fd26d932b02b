(** Volume-of-fluid kernels (one element or one exposed face, before assembly) and the nodal steps of the
    volume-of-fluid equation system.
    Files: kernel/VolumeOfFluid*ElemKernel.C, kernel/ContinuityVof*ElemKernel.C, kernel/MomentumVof*ElemKernel.C,
    VolumeOfFluidEquationSystem.C.
    Simplifications: real arithmetic, one SIMD lane; gathered scalar fields are functions of the local node
    number, vector fields functions of the flat index node*nDim+component; the master-element data are
    parameters (their values are the subject of the ME_* files), including [dv], the gradient operator at the
    sub-control-volume points (dndx_scv). *)
Require Import Reals List Bool.
From Verif Require Import Edge_Model Elem_Model Turb_Model.
Import ListNotations.
Open Scope R_scope.

(** C's pow for a base in [0,1] and an exponent >= 0: pow(x,0) = 1, pow(0,y) = 0 for y > 0 *)
Definition vpow (x y : R) : R := if Req_EM_T y 0 then 1 else cpow x y.

(** VolumeOfFluidMassElemKernel.C:98-129 *)
Definition vof_mass (m : me) (t : dts) (a1 a0 am : nat -> R) (s0 : esys) : esys :=
  loop (nscv m) (fun ip s =>
    let nn := nearest m ip in
    let scV := vol m ip in
    let s := loop (npe m) (fun ic s => addL nn ic (Nv m ip ic * ga1 t / dt t * scV) s) s in
    let mass := (ga1 t*at_scv m a1 ip + ga2 t*at_scv m a0 ip + ga3 t*at_scv m am ip) / dt t in
    addB nn (- (mass*scV)) s) s0.

(** VolumeOfFluidScsNoPstabAdvElemKernel.C:85-105: volume flow rate of the interpolated velocity *)
Definition vdot_nopstab (m : me) (v : nat -> R) (ip : nat) : R :=
  sumn (ndim m) (fun i => sumn (npe m) (fun ic => Ns m ip ic * v (ic*ndim m+i)%nat) * area m ip i).

(** VolumeOfFluidScsAdvElemKernel.C:71-95 (vdot the stored flow rate) and
    VolumeOfFluidScsNoPstabAdvElemKernel.C:79-119 (vdot = vdot_nopstab) *)
Definition vof_scs_adv (m : me) (vdot : nat -> R) (q : nat -> R) (s0 : esys) : esys :=
  loop (nscs m) (fun ip s =>
    let il := lrL m ip in let ir := lrR m ip in
    let '(s, vofAdv) := loop (npe m) (fun ic st =>
        let '(s, a) := st in
        let f := Ns m ip ic * vdot ip in
        let a := a + f * q ic in
        let s := addL il ic f s in
        let s := addL ir ic (- f) s in
        (s, a)) (s, 0) in
    addB ir vofAdv (addB il (- vofAdv) s)) s0.

(** VolumeOfFluidScsUpwAdvElemKernel.C:86-153 and VolumeOfFluidScsNoPstabUpwAdvElemKernel.C:90-162:
    extrapolated states; [x] coordinates, [G] nodal gradient, both flat; van_leer is 158-165 *)
Record vupw := mkVU { vu_ho : R; vu_lim : bool; vu_small : R; vu_x : nat -> R; vu_G : nat -> R }.
Definition vof_xip (m : me) (o : vupw) (ip j : nat) : R := sumn (npe m) (fun ic => Ns m ip ic * vu_x o (ic*ndim m+j)%nat).
Definition vof_left (m : me) (o : vupw) (q : nat -> R) (ip : nat) : R :=
  let il := lrL m ip in let ir := lrR m ip in let d := ndim m in
  let dqL := sumn d (fun j => (vof_xip m o ip j - vu_x o (il*d+j)%nat) * vu_G o (il*d+j)%nat) in
  let dq := q ir - q il in
  let limitL := if vu_lim o then van_leer (2*2*dqL - dq) dq (vu_small o) else 1 in
  q il + dqL*vu_ho o*limitL.
Definition vof_right (m : me) (o : vupw) (q : nat -> R) (ip : nat) : R :=
  let il := lrL m ip in let ir := lrR m ip in let d := ndim m in
  let dqR := sumn d (fun j => (vu_x o (ir*d+j)%nat - vof_xip m o ip j) * vu_G o (ir*d+j)%nat) in
  let dq := q ir - q il in
  let limitR := if vu_lim o then van_leer (2*2*dqR - dq) dq (vu_small o) else 1 in
  q ir - dqR*vu_ho o*limitR.
Definition vof_upwind (m : me) (o : vupw) (vdot : nat -> R) (q : nat -> R) (ip : nat) : R :=
  if Rlt_dec 0 (vdot ip) then vof_left m o q ip else vof_right m o q ip.
Definition vof_scs_upw (m : me) (o : vupw) (vdot : nat -> R) (q : nat -> R) (s0 : esys) : esys :=
  loop (nscs m) (fun ip s =>
    let il := lrL m ip in let ir := lrR m ip in
    let adv := vdot ip * vof_upwind m o vdot q ip in
    let s := addB il (- adv) s in
    let s := addB ir adv s in
    let fL := (1/2)*(vdot ip + Rabs (vdot ip)) in
    let s := addL il il fL s in
    let s := addL ir il (- fL) s in
    let fR := (1/2)*(vdot ip - Rabs (vdot ip)) in
    let s := addL il il (- fR) s in
    addL ir il fR s) s0.

(** VolumeOfFluidScvAdvElemKernel.C:79-116: u.grad(alpha) over each sub-control volume *)
Definition vof_scv_adv (m : me) (dv : nat -> nat -> nat -> R) (v : nat -> R) (q : nat -> R) (s0 : esys) : esys :=
  let d := ndim m in
  loop (nscv m) (fun ip s =>
    let nn := nearest m ip in
    let uIp := fun j => sumn (npe m) (fun ic => Nv m ip ic * v (ic*d+j)%nat) in
    let scV := vol m ip in
    let '(s, a) := loop (npe m) (fun ic st =>
        let '(s, a) := st in
        let lhsAdv := sumn d (fun j => uIp j * dv ip ic j) in
        (addL nn ic (lhsAdv*scV) s, a + lhsAdv * q ic)) (s, 0) in
    addB nn (- (a*scV)) s) s0.

(** VolumeOfFluidDivElemKernel.C:79-104 *)
Definition vof_divU (m : me) (dv : nat -> nat -> nat -> R) (v : nat -> R) (ip : nat) : R :=
  sumn (npe m) (fun ic => sumn (ndim m) (fun j => v (ic*ndim m+j)%nat * dv ip ic j)).
Definition vof_div (m : me) (dv : nat -> nat -> nat -> R) (v : nat -> R) (q : nat -> R) (s0 : esys) : esys :=
  loop (nscv m) (fun ip s =>
    let nn := nearest m ip in
    let divU := vof_divU m dv v ip in
    let scV := vol m ip in
    let s := loop (npe m) (fun ic s => addL nn ic (- (Nv m ip ic*divU*scV)) s) s in
    addB nn (at_scv m q ip*divU*scV) s) s0.

(** VolumeOfFluidGclElemKernel.C:79-99 *)
Definition vof_gcl (m : me) (divV : nat -> R) (q : nat -> R) (s0 : esys) : esys :=
  loop (nscv m) (fun ip s =>
    let nn := nearest m ip in
    let scV := vol m ip in
    let s := addB nn (- (at_scv m q ip*at_scv m divV ip*scV)) s in
    loop (npe m) (fun ic s => addL nn ic (Nv m ip ic*(at_scv m divV ip*scV)) s) s) s0.

(** VolumeOfFluidSharpenElemKernel.C:80-112: [v] velocity, [nrm] interface normal *)
Definition mag_u (d : nat) (v : nat -> R) (ic : nat) : R := sqrt (sumn d (fun k => v (ic*d+k)%nat * v (ic*d+k)%nat)).
Definition comp_u (d : nat) (cA : R) (v nrm : nat -> R) (ic j : nat) : R := cA * mag_u d v ic * nrm (ic*d+j)%nat.
Definition vof_sharpen (m : me) (dv : nat -> nat -> nat -> R) (cA : R) (v nrm : nat -> R) (q : nat -> R) (s0 : esys) : esys :=
  let d := ndim m in
  loop (nscv m) (fun ip s =>
    let nn := nearest m ip in
    let scV := vol m ip in
    let '(s, sh) := loop (npe m) (fun ic st =>
        let '(s, sh) := st in
        let lhsOne := sumn d (fun j => comp_u d cA v nrm ic j * dv ip ic j) in
        let lhsTwo := sumn d (fun j => - (2*comp_u d cA v nrm ic j*q ic*dv ip ic j)) in
        let su := sumn d (fun j => comp_u d cA v nrm ic j * dv ip ic j) in
        (addL nn ic ((lhsOne*1 + lhsTwo*0)*scV) s, sh + su*(q ic*(1 - q ic)))) (s, 0) in
    addB nn (- (sh*scV)) s) s0.

(** VolumeOfFluidEvaporationElemKernel.C:83-114, ContinuityVofEvaporationElemKernel.C:80-111: the gradient
    accumulates the partially interpolated volume fraction *)
Record evap := mkEv { ev_rhoL : R; ev_rhoG : R; ev_jm : R; ev_m : R; ev_n : R; ev_c : R }.
Definition evap_acc (m : me) (dv : nat -> nat -> nat -> R) (q : nat -> R) (ip : nat) : R * (nat -> R) :=
  loop (npe m) (fun ic st =>
    let '(a, g) := st in
    let a := a + Nv m ip ic * q ic in
    (a, fun j => g j + a * dv ip ic j)) (0, fun _ => 0).
Definition evap_sM (m : me) (dv : nat -> nat -> nat -> R) (e : evap) (q : nat -> R) (ip : nat) : R :=
  let '(a, g) := evap_acc m dv q ip in
  let mag := sqrt (sumn (ndim m) (fun j => g j * g j)) in
  ev_c e * vpow a (ev_n e) * vpow (1 - a) (ev_m e) * mag * ev_jm e.
Definition vof_evap (m : me) (dv : nat -> nat -> nat -> R) (e : evap) (q : nat -> R) (s0 : esys) : esys :=
  loop (nscv m) (fun ip s =>
    addB (nearest m ip) (- (ev_c e * evap_sM m dv e q ip / ev_rhoL e * vol m ip)) s) s0.
Definition cont_evap (m : me) (dv : nat -> nat -> nat -> R) (e : evap) (q : nat -> R) (s0 : esys) : esys :=
  loop (nscv m) (fun ip s =>
    addB (nearest m ip) (- (ev_c e * evap_sM m dv e q ip * (1/ev_rhoG e - 1/ev_rhoL e) * vol m ip)) s) s0.

(** VolumeOfFluidSucvNsoElemKernel.C:123-235; [gU], [gL] are gijUpper and gijLower at the scs points *)
Record sucv := mkSU { su_fac : R; su_nso : R; su_time : R; su_gijC : R; su_Cupw : R; su_small : R;
  su_gU : nat -> nat -> nat -> R; su_gL : nat -> nat -> nat -> R; su_v : nat -> R }.
(** lines 137-153 *)
Definition su_u (m : me) (o : sucv) (ip j : nat) : R :=
  su_small o*(1 - su_time o) + sumn (npe m) (fun ic => Ns m ip ic * su_v o (ic*ndim m+j)%nat).
Definition su_grad (m : me) (q : nat -> R) (ip j : nat) : R := sumn (npe m) (fun ic => q ic * dndx m ip ic j).
(** lines 156-168 *)
Definition su_ujaj (m : me) (o : sucv) (ip : nat) : R := sumn (ndim m) (fun i => su_u m o ip i * area m ip i).
Definition su_ugu (m : me) (o : sucv) (ip : nat) : R :=
  sumn (ndim m) (fun i => sumn (ndim m) (fun j => su_u m o ip i * su_gL o ip i j * su_gijC o * su_u m o ip j)).
Definition su_gradmag (m : me) (o : sucv) (q : nat -> R) (ip : nat) : R :=
  sumn (ndim m) (fun i => sumn (ndim m) (fun j => su_grad m q ip i * su_gU o ip i j / su_gijC o * su_grad m q ip j)).
(** line 174 *)
Definition su_tau (m : me) (o : sucv) (t : dts) (ip : nat) : R :=
  1 / sqrt ((2/dt t)*(2/dt t)*su_time o + su_ugu m o ip).
(** lines 176-194 *)
Definition su_udN (m : me) (o : sucv) (ip ic : nat) : R := sumn (ndim m) (fun i => su_u m o ip i * dndx m ip ic i).
Definition su_residual (m : me) (o : sucv) (t : dts) (q a0 am : nat -> R) (ip : nat) : R :=
  (ga1 t*at_scs m q ip + ga2 t*at_scs m a0 ip + ga3 t*at_scs m am ip) / dt t
  + sumn (npe m) (fun ic => sumn (ndim m) (fun i => su_u m o ip i * dndx m ip ic i * q ic)).
(** lines 203-210 *)
Definition su_nu (m : me) (o : sucv) (t : dts) (q a0 am : nat -> R) (ip : nat) : R :=
  let r := su_residual m o t q a0 am ip in
  Rmin (su_Cupw o * sqrt (su_ugu m o ip)) (sqrt ((r*r) / (su_gradmag m o q ip + su_small o))).
Definition su_gdN (m : me) (o : sucv) (ip ic : nat) : R :=
  sumn (ndim m) (fun i => sumn (ndim m) (fun j => su_gU o ip i j / su_gijC o * dndx m ip ic j * area m ip i)).
Definition vof_sucv (m : me) (o : sucv) (t : dts) (a0 am : nat -> R) (q : nat -> R) (s0 : esys) : esys :=
  loop (nscs m) (fun ip s =>
    let il := lrL m ip in let ir := lrR m ip in
    let tau := su_tau m o t ip in let uja := su_ujaj m o ip in
    let s := loop (npe m) (fun ic s =>
        let lhsfac := - su_udN m o ip ic in
        let s := addL il ic (tau*uja*lhsfac*su_fac o) s in
        addL ir ic (- (tau*uja*lhsfac*su_fac o)) s) s in
    let rs := - tau*uja*su_residual m o t q a0 am ip*su_fac o in
    let s := addB il (- rs) s in
    let s := addB ir rs s in
    let nu := su_nu m o t q a0 am ip in
    let '(s, gf) := loop (npe m) (fun ic st =>
        let '(s, gf) := st in
        let fac := su_gdN m o ip ic in
        let s := addL il ic (nu*(- fac)*su_nso o) s in
        let s := addL ir ic (- (nu*(- fac)*su_nso o)) s in
        (s, gf + fac*q ic)) (s, 0) in
    let rn := - nu*gf*su_nso o in
    addB ir rn (addB il (- rn) s)) s0.

(** ContinuityVofAdvElemKernel.C:132-184; c_, n_, m_ of the localised surface tension *)
Record cvof := mkCV { cv_tau : R; cv_bw : R; cv_g : nat -> R; cv_c : R; cv_n : R; cv_m : R;
  cv_rho : nat -> R; cv_vof : nat -> R; cv_sigma : nat -> R; cv_kappa : nat -> R; cv_v : nat -> R; cv_Gp : nat -> R }.
Definition loc_fac (c : cvof) (a : R) : R := cv_c c * vpow a (cv_n c) * vpow (1 - a) (cv_m c).
Definition cvof_vdot (m : me) (c : cvof) (p : nat -> R) (ip : nat) : R :=
  let d := ndim m in
  let rhoIp := at_scs m (cv_rho c) ip in
  let vofIp := at_scs m (cv_vof c) ip in
  let sk := sumn (npe m) (fun ic => Ns m ip ic * cv_sigma c ic * cv_kappa c ic) * loc_fac c vofIp in
  let dvda := sumn (npe m) (fun ic => sumn d (fun j => dndx m ip ic j * cv_vof c ic * area m ip j)) in
  cv_tau c*sk*dvda/rhoIp +
  sumn d (fun j => (sumn (npe m) (fun ic => Ns m ip ic * cv_v c (ic*d+j)%nat)
      - cv_tau c*((sumn (npe m) (fun ic => dndx m ip ic j * p ic) - cv_bw c*rhoIp*cv_g c j)/rhoIp
                  - sumn (npe m) (fun ic => Ns m ip ic * cv_Gp c (ic*d+j)%nat))) * area m ip j).
Definition cont_vof_adv (m : me) (c : cvof) (p : nat -> R) (s0 : esys) : esys :=
  loop (nscs m) (fun ip s =>
    let il := lrL m ip in let ir := lrR m ip in
    let rhoIp := at_scs m (cv_rho c) ip in
    let s := loop (npe m) (fun ic s =>
        let f := sumn (ndim m) (fun j => - dndx_lhs m ip ic j * area m ip j) in
        let s := addL il ic (f/rhoIp) s in
        addL ir ic (- (f/rhoIp)) s) s in
    let vd := cvof_vdot m c p ip in
    addB ir (vd/cv_tau c) (addB il (- (vd/cv_tau c)) s)) s0.

(** one exposed face of an element: nodes of the face and of the element, face points, local node of each point,
    element nodes of the face, shape functions on the face, gradient of the element's shape functions, area vectors *)
Record vface := mkVF { vf_npf : nat; vf_nip : nat; vf_npe : nat; vf_dim : nat; vf_near : nat -> nat; vf_ord : nat -> nat;
  vf_N : nat -> nat -> R; vf_dn : nat -> nat -> nat -> R; vf_dnl : nat -> nat -> nat -> R; vf_A : nat -> nat -> R }.
Definition at_face (f : vface) (q : nat -> R) (ip : nat) : R := sumn (vf_npf f) (fun ic => vf_N f ip ic * q ic).

(** ContinuityVofInflowElemKernel.C:81-104 (a face system: rows are face nodes) *)
Definition cont_vof_inflow (f : vface) (tau : R) (vbc : nat -> R) (s0 : esys) : esys :=
  let d := vf_dim f in
  loop (vf_nip f) (fun ip s =>
    let vdot := sumn d (fun j => sumn (vf_npf f) (fun ic => vf_N f ip ic * vbc (ic*d+j)%nat) * vf_A f ip j) in
    addB (vf_near f ip) (- (vdot/tau)) s) s0.

(** ContinuityVofOpenElemKernel.C:155-235; the nodal fields are element fields, read at the face's nodes *)
Definition vf_amag (f : vface) (ip : nat) : R := sqrt (sumn (vf_dim f) (fun j => vf_A f ip j * vf_A f ip j)).
Definition vf_invL (f : vface) (ip : nat) : R :=
  sumn (vf_npf f) (fun ic => sumn (vf_dim f) (fun j => vf_dn f ip (vf_ord f ic) j * vf_A f ip j)) / vf_amag f ip.
Definition on_face (f : vface) (q : nat -> R) (ic : nat) : R := q (vf_ord f ic).
Definition vopen_vdot (f : vface) (pen : R) (c : cvof) (pbc dyn p : nat -> R) (ip : nat) : R :=
  let d := vf_dim f in
  let pBip := at_face f (on_face f p) ip in
  let pbcBip := - dyn ip + at_face f (on_face f pbc) ip in
  let rho := at_face f (on_face f (cv_rho c)) ip in
  let sk := sumn (vf_npf f) (fun ic => vf_N f ip ic * on_face f (cv_sigma c) ic * on_face f (cv_kappa c) ic)
            * loc_fac c (at_face f (on_face f (cv_vof c)) ip) in
  let dvda := sumn (vf_npe f) (fun ic => sumn d (fun j => vf_dn f ip ic j * cv_vof c ic * vf_A f ip j)) in
  pen*cv_tau c/rho*vf_invL f ip*(pBip - pbcBip)*vf_amag f ip + cv_tau c*sk*dvda/rho +
  sumn d (fun j => (sumn (vf_npf f) (fun ic => vf_N f ip ic * cv_v c (vf_ord f ic*d+j)%nat)
     - cv_tau c*((sumn (vf_npe f) (fun ic => vf_dn f ip ic j * p ic) - cv_bw c*rho*cv_g c j)/rho
                 - sumn (vf_npf f) (fun ic => vf_N f ip ic * cv_Gp c (vf_ord f ic*d+j)%nat))) * vf_A f ip j).
Definition cont_vof_open (f : vface) (pen : R) (c : cvof) (pbc dyn p : nat -> R) (s0 : esys) : esys :=
  loop (vf_nip f) (fun ip s =>
    let nn := vf_near f ip in
    let rho := at_face f (on_face f (cv_rho c)) ip in
    let vd := vopen_vdot f pen c pbc dyn p ip in
    let s := loop (vf_npf f) (fun ic s =>
        addL nn (vf_ord f ic) (vf_N f ip ic*pen/rho*vf_invL f ip*vf_amag f ip) s) s in
    let s := loop (vf_npe f) (fun ic s =>
        addL nn ic (sumn (vf_dim f) (fun j => - vf_dnl f ip ic j * vf_A f ip j)/rho) s) s in
    addB nn (- (vd/cv_tau c)) s) s0.

(** VolumeOfFluidOpenAdvElemKernel.C:80-119 *)
Definition vof_open_adv (f : vface) (vdot : nat -> R) (qbc q : nat -> R) (s0 : esys) : esys :=
  loop (vf_nip f) (fun ip s =>
    let nn := vf_near f ip in
    let qIp := at_face f (on_face f q) ip in
    let qE := at_face f (on_face f qbc) ip in
    let leaving := if Rlt_dec 0 (vdot ip) then 1 else 0 in
    let s := addB nn (- (vdot ip*qIp*leaving)) s in
    let fac := vdot ip*leaving in
    let s := loop (vf_npf f) (fun ic s => addL nn (vf_ord f ic) (vf_N f ip ic*fac) s) s in
    addB nn (- (vdot ip*qE*(1 - leaving))) s) s0.

(** MomentumVofCapillaryElemKernel.C:95-176 *)
Definition cap_mu (m : me) (dtm : R) (sigma vof : nat -> R) (ip : nat) : R :=
  at_scs m sigma ip * dtm * sqrt (sumn (ndim m) (fun j =>
     sumn (npe m) (fun ic => vof ic * dndx m ip ic j) * sumn (npe m) (fun ic => vof ic * dndx m ip ic j))).
Definition mom_capillary (m : me) (dtm : R) (sigma vof nrm : nat -> R) (u : nat -> R) (s0 : esys) : esys :=
  let d := ndim m in
  loop (nscs m) (fun ip s =>
    let il := lrL m ip in let ir := lrR m ip in
    let nx := fun j => sumn (npe m) (fun ic => Ns m ip ic * nrm (ic*d+j)%nat) in
    let mu := cap_mu m dtm sigma vof ip in
    loop (npe m) (fun ic s =>
      loop d (fun j s =>
        let axj := area m ip j in let dn := dndx m ip ic j in
        loop d (fun i s =>
          let iL := (il*d+i)%nat in let iR := (ir*d+i)%nat in
          let f := - mu*dn*axj*(1 - nx i*nx i) in
          let s := addL iL (ic*d+i)%nat f s in
          let s := addL iR (ic*d+i)%nat (- f) s in
          let s := addB iL (- (f*u (ic*d+i)%nat)) s in
          let s := addB iR (f*u (ic*d+i)%nat) s in
          loop d (fun l s =>
            if Nat.eqb i l then s else
            let f := mu*dn*axj*(nx i*nx l) in
            let s := addL iL (ic*d+l)%nat f s in
            let s := addL iR (ic*d+l)%nat (- f) s in
            let s := addB iL (- (f*u (ic*d+l)%nat)) s in
            addB iR (f*u (ic*d+l)%nat) s) s) s) s) s) s0.

(** MomentumVofSharpenElemKernel.C:86-150; [dd] = rho1 - rho2 *)
Definition msharp (m : me) (cA dd : R) (v nrm vof : nat -> R) (ip : nat) : R :=
  let d := ndim m in
  dd * sumn (npe m) (fun ic => sumn d (fun j =>
     Ns m ip ic * comp_u d cA v nrm ic j * vof ic * (1 - vof ic) * area m ip j)).
Definition mom_sharpen (m : me) (cA dd : R) (v nrm vof : nat -> R) (u : nat -> R) (s0 : esys) : esys :=
  let d := ndim m in
  loop (nscs m) (fun ip s =>
    let il := lrL m ip in let ir := lrR m ip in
    let sh := msharp m cA dd v nrm vof ip in
    let s := loop d (fun i s =>
        let uIp := sumn (npe m) (fun ic => Ns m ip ic * u (ic*d+i)%nat) in
        addB (ir*d+i)%nat (uIp*sh) (addB (il*d+i)%nat (- (uIp*sh)) s)) s in
    loop (npe m) (fun ic s =>
      let f := Ns m ip ic * sh in
      loop d (fun i s =>
        addL (ir*d+i)%nat (ic*d+i)%nat (- f) (addL (il*d+i)%nat (ic*d+i)%nat f s)) s) s) s0.
