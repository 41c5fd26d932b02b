(** Nonlinear stabilisation operators (src/nso). Accumulation loops over element nodes and directions are written as
    sums; the assembly loops are kept. Vector fields are flat (node*dim+component), tensors (node*dim+k)*dim+j.
    Simplification: one element at a time, real arithmetic; SIMD lanes and the gather of fields are not repeated here. *)
Require Import Reals List Bool.
From Verif Require Import Edge_Model Elem_Model Fem_Model.
Import ListNotations.
Open Scope R_scope.

(** density (three states), velocity relative to the mesh, metric tensors g^ij and g_ij at the points, constants *)
Record nso := mkNso { n_r1 : nat -> R; n_r0 : nat -> R; n_rm : nat -> R; n_v : nat -> R;
  n_gU : nat -> nat -> nat -> R; n_gL : nat -> nat -> nat -> R; n_Cupw : R; n_small : R; n_fourth : R; n_alt : R; n_ncf : R }.

(** ScalarNSOElemKernel.C:176-183: interpolated mass flux, gradient, flux divergences *)
Definition n_rhoV (m : me) (o : nso) (ip j : nat) : R := sumn (npe m) (fun ic => Ns m ip ic * n_r1 o ic * n_v o (ic*ndim m+j)%nat).
Definition n_grad (m : me) (q : nat -> R) (ip j : nat) : R := sumn (npe m) (fun ic => q ic * dndx m ip ic j).
Definition n_adv (m : me) (o : nso) (q : nat -> R) (ip : nat) : R :=
  sumn (npe m) (fun ic => sumn (ndim m) (fun j => n_r1 o ic * n_v o (ic*ndim m+j)%nat * q ic * dndx m ip ic j)).
Definition n_dif (m : me) (mu G : nat -> R) (ip : nat) : R :=
  sumn (npe m) (fun ic => sumn (ndim m) (fun j => mu ic * G (ic*ndim m+j)%nat * dndx m ip ic j)).
Definition n_cont (m : me) (o : nso) (ip : nat) : R :=
  sumn (npe m) (fun ic => sumn (ndim m) (fun j => n_r1 o ic * n_v o (ic*ndim m+j)%nat * dndx m ip ic j)).
(** line 188 *)
Definition n_contRes (m : me) (o : nso) (t : dts) (ip : nat) : R :=
  (ga1 t*at_scs m (n_r1 o) ip + ga2 t*at_scs m (n_r0 o) ip + ga3 t*at_scs m (n_rm o) ip)/dt t + n_cont m o ip.
(** lines 191-193 *)
Definition n_resAlt (m : me) (o : nso) (q : nat -> R) (ip : nat) : R :=
  n_adv m o q ip - at_scs m q ip * n_cont m o ip - sumn (ndim m) (fun j => n_rhoV m o ip j * n_grad m q ip j).
(** lines 196-197; [extra] is the pressure gradient of the momentum kernel *)
Definition n_resPde (m : me) (o : nso) (t : dts) (q1 q0 qm : nat -> R) (diff extra : R) (ip : nat) : R :=
  (ga1 t*at_scs m (n_r1 o) ip*at_scs m q1 ip + ga2 t*at_scs m (n_r0 o) ip*at_scs m q0 ip + ga3 t*at_scs m (n_rm o) ip*at_scs m qm ip)/dt t
  + n_adv m o q1 ip - diff + extra - n_contRes m o t ip*at_scs m q1 ip*n_ncf o.
(** line 200 *)
Definition n_residual (m : me) (o : nso) (t : dts) (q1 q0 qm : nat -> R) (diff extra : R) (ip : nat) : R :=
  n_resAlt m o q1 ip * n_alt o + n_resPde m o t q1 q0 qm diff extra ip * (1 - n_alt o).
(** lines 203-212 *)
Definition n_quad (d : nat) (g : nat -> nat -> nat -> R) (w : nat -> R) (ip : nat) : R :=
  sumn d (fun i => sumn d (fun j => w i * g ip i j * w j)).
(** lines 215-222 *)
Definition n_nu (m : me) (o : nso) (res gmag : R) (ip : nat) : R :=
  Rmin (n_Cupw o * sqrt (n_quad (ndim m) (n_gL o) (n_rhoV m o ip) ip)) (sqrt ((res*res)/(gmag + n_small o))).
(** lines 224-253: assembly of one component; rows node*st+k of an element with [st] components per node; Gk ic j the
    projected nodal gradient of that component *)
Definition n_fac (m : me) (o : nso) (ip ic : nat) : R :=
  sumn (ndim m) (fun i => sumn (ndim m) (fun j => n_gU o ip i j * dndx m ip ic j * area m ip i)).
Definition n_facG (m : me) (o : nso) (Gk : nat -> nat -> R) (ip ic : nat) : R :=
  sumn (ndim m) (fun i => sumn (ndim m) (fun j => Ns m ip ic * n_gU o ip i j * Gk ic j * area m ip i)).
Definition n_assemble (m : me) (o : nso) (st k : nat) (nu : R) (Gk : nat -> nat -> R) (qk : nat -> R) (ip : nat) (s : esys) : esys :=
  let il := (lrL m ip*st+k)%nat in let ir := (lrR m ip*st+k)%nat in
  let '(s, g) := loop (npe m) (fun ic x =>
      let '(s, g) := x in
      let g := g + (n_fac m o ip ic*qk ic - n_facG m o Gk ip ic*n_fourth o) in
      let s := addL il (ic*st+k)%nat (nu*(- n_fac m o ip ic)) s in
      let s := addL ir (ic*st+k)%nat (- (nu*(- n_fac m o ip ic))) s in
      (s, g)) (s, 0) in
  let r := - nu*g in
  addB ir r (addB il (- r) s).

(** ScalarNSOElemKernel.C:141-256 *)
Definition n_scalar_nu (m : me) (o : nso) (t : dts) (mu G : nat -> R) (q1 q0 qm : nat -> R) (ip : nat) : R :=
  n_nu m o (n_residual m o t q1 q0 qm (n_dif m mu G ip) 0 ip) (n_quad (ndim m) (n_gU o) (n_grad m q1 ip) ip) ip.
Definition scalar_nso (m : me) (o : nso) (t : dts) (mu G : nat -> R) (q0 qm q1 : nat -> R) (s0 : esys) : esys :=
  loop (nscs m) (fun ip s =>
    n_assemble m o 1 0 (n_scalar_nu m o t mu G q1 q0 qm ip) (fun ic j => G (ic*ndim m+j)%nat) q1 ip s) s0.

(** ScalarNSOKeElemKernel.C:112-204, MomentumNSOKeElemKernel.C:109-194: coefficient from the fine-scale momentum
    residual times the velocity; [tc] is turbCoeff_ (1 in the momentum kernel) *)
Definition n_ke (m : me) (u : nat -> R) (ic : nat) : R := sumn (ndim m) (fun j => u (ic*ndim m+j)%nat * u (ic*ndim m+j)%nat / 2).
Definition n_keRes (m : me) (o : nso) (u p Gp : nat -> R) (ip : nat) : R :=
  sumn (ndim m) (fun j => sumn (npe m) (fun ic => Ns m ip ic * u (ic*ndim m+j)%nat)
     * (n_grad m p ip j - sumn (npe m) (fun ic => Ns m ip ic * Gp (ic*ndim m+j)%nat)) / at_scs m (n_r1 o) ip / 2).
Definition n_ke_nu (m : me) (o : nso) (tc : R) (u p Gp : nat -> R) (ip : nat) : R :=
  Rmin (n_Cupw o * sqrt (n_quad (ndim m) (n_gL o) (n_rhoV m o ip) ip))
       (at_scs m (n_r1 o) ip * sqrt ((n_keRes m o u p Gp ip * n_keRes m o u p Gp ip)
          /(n_quad (ndim m) (n_gU o) (n_grad m (n_ke m u) ip) ip + n_small o)) / tc).
(** ScalarNSOKeElemKernel.C:186-218 *)
Definition scalar_nso_ke (m : me) (o : nso) (tc : R) (u p Gp G : nat -> R) (q : nat -> R) (s0 : esys) : esys :=
  loop (nscs m) (fun ip s =>
    n_assemble m o 1 0 (n_ke_nu m o tc u p Gp ip) (fun ic j => G (ic*ndim m+j)%nat) q ip s) s0.
(** MomentumNSOKeElemKernel.C:194-233 *)
Definition momentum_nso_ke (m : me) (o : nso) (p Gp Gu : nat -> R) (u : nat -> R) (s0 : esys) : esys :=
  let d := ndim m in
  loop (nscs m) (fun ip s =>
    let nu := n_ke_nu m o 1 u p Gp ip in
    loop d (fun k s => n_assemble m o d k nu (fun ic j => Gu ((ic*d+k)*d+j)%nat) (fun ic => u (ic*d+k)%nat) ip s) s) s0.

(** MomentumNSOElemKernel.C:147-307 *)
Definition n_divG (m : me) (Gu : nat -> R) (ip : nat) : R :=
  sumn (npe m) (fun ic => sumn (ndim m) (fun j => Ns m ip ic * Gu ((ic*ndim m+j)*ndim m+j)%nat)).
Definition n_mdif (m : me) (incl : R) (mu Gu : nat -> R) (k ip : nat) : R :=
  let d := ndim m in
  sumn (npe m) (fun ic => sumn d (fun j => mu ic * (Gu ((ic*d+k)*d+j)%nat + Gu ((ic*d+j)*d+k)%nat
     - 2/3*n_divG m Gu ip*(if Nat.eqb k j then 1 else 0)*incl) * dndx m ip ic j)).
Definition n_mom_nu (m : me) (o : nso) (t : dts) (incl : R) (mu p Gu : nat -> R) (u1 u0 um : nat -> R) (k ip : nat) : R :=
  let d := ndim m in
  let c := fun (u : nat -> R) ic => u (ic*d+k)%nat in
  n_nu m o (n_residual m o t (c u1) (c u0) (c um) (n_mdif m incl mu Gu k ip) (n_grad m p ip k) ip)
    (n_quad d (n_gU o) (n_grad m (c u1) ip) ip) ip.
Definition momentum_nso (m : me) (o : nso) (t : dts) (incl : R) (mu p Gu : nat -> R) (u0 um u1 : nat -> R) (s0 : esys) : esys :=
  let d := ndim m in
  loop (nscs m) (fun ip s =>
    loop d (fun k s => n_assemble m o d k (n_mom_nu m o t incl mu p Gu u1 u0 um k ip)
        (fun ic j => Gu ((ic*d+k)*d+j)%nat) (fun ic => u1 (ic*d+k)%nat) ip s) s) s0.
(** MomentumNSOGradElemSuppAlg.C:179-319: residual is the fine-scale pressure gradient of component k *)
Definition n_grad_nu (m : me) (o : nso) (p Gp : nat -> R) (u : nat -> R) (k ip : nat) : R :=
  let d := ndim m in
  n_nu m o (n_grad m p ip k - sumn (npe m) (fun ic => Ns m ip ic * Gp (ic*d+k)%nat))
    (n_quad d (n_gU o) (n_grad m (fun ic => u (ic*d+k)%nat) ip) ip) ip.
Definition momentum_nso_grad (m : me) (o : nso) (p Gp Gu : nat -> R) (u : nat -> R) (s0 : esys) : esys :=
  let d := ndim m in
  loop (nscs m) (fun ip s =>
    loop d (fun k s => n_assemble m o d k (n_grad_nu m o p Gp u k ip)
        (fun ic j => Gu ((ic*d+k)*d+j)%nat) (fun ic => u (ic*d+k)%nat) ip s) s) s0.
(** MomentumNSOSijElemKernel.C:119-229 *)
Definition n_divU (m : me) (u : nat -> R) (ip : nat) : R :=
  sumn (npe m) (fun ic => sumn (ndim m) (fun j => u (ic*ndim m+j)%nat * dndx m ip ic j)).
Definition momentum_nso_sij (m : me) (o : nso) (incl : R) (p Gp : nat -> R) (u : nat -> R) (s0 : esys) : esys :=
  let d := ndim m in
  loop (nscs m) (fun ip s =>
    let il := lrL m ip in let ir := lrR m ip in
    let nu := n_ke_nu m o 1 u p Gp ip in
    loop (npe m) (fun ic s =>
      loop d (fun i s =>
        let divUs := 2/3*nu*n_divU m u ip*area m ip i*n_gU o ip i i*incl in
        let iL := (il*d+i)%nat in let iR := (ir*d+i)%nat in
        let '(s, a) := loop d (fun j x =>
            let '(s, a) := x in
            let fi := - nu*n_gU o ip i j*dndx m ip ic j*area m ip j in
            let fj := - nu*n_gU o ip i j*dndx m ip ic i*area m ip j in
            let s := addL iL (ic*d+j)%nat fj s in
            let s := addL iR (ic*d+j)%nat (- fj) s in
            let s := addB iL (- (fj*u (ic*d+j)%nat)) s in
            let s := addB iR (fj*u (ic*d+j)%nat) s in
            (s, a + fi)) (s, 0) in
        let s := addL iL (ic*d+i)%nat a s in
        let s := addL iR (ic*d+i)%nat (- a) s in
        let s := addB iL (- (a*u (ic*d+i)%nat + divUs)) s in
        addB iR (a*u (ic*d+i)%nat + divUs) s) s) s) s0.

(** ScalarNSOFemKernel.C:97-182 *)
Definition nf_rhoV (m : fem) (rho v : nat -> R) (ip j : nat) : R := sumn (f_npe m) (fun ic => f_N m ip ic * rho ic * v (ic*f_dim m+j)%nat).
Definition nf_grad (m : fem) (q : nat -> R) (ip j : nat) : R := sumn (f_npe m) (fun ic => q ic * f_dn m ip ic j).
Definition nf_residual (m : fem) (rho v q : nat -> R) (ip : nat) : R :=
  sumn (f_npe m) (fun ic => sumn (f_dim m) (fun j => rho ic * v (ic*f_dim m+j)%nat * q ic * f_dn m ip ic j))
  - at_gp m q ip * sumn (f_npe m) (fun ic => sumn (f_dim m) (fun j => rho ic * v (ic*f_dim m+j)%nat * f_dn m ip ic j))
  - sumn (f_dim m) (fun j => nf_rhoV m rho v ip j * nf_grad m q ip j).
Definition nf_nu (m : fem) (Cupw small : R) (gU gL : nat -> nat -> nat -> R) (rho v q : nat -> R) (ip : nat) : R :=
  let r := nf_residual m rho v q ip in
  Rmin (Cupw * sqrt (n_quad (f_dim m) gL (nf_rhoV m rho v ip) ip)) (sqrt ((r*r)/(n_quad (f_dim m) gU (nf_grad m q ip) ip + small))).
Definition nf_fac (m : fem) (gU : nat -> nat -> nat -> R) (ip ir ic : nat) : R :=
  sumn (f_dim m) (fun i => sumn (f_dim m) (fun j => f_dn m ip ir i * gU ip i j * f_dn m ip ic j)).
Definition fem_nso (m : fem) (Cupw small : R) (gU gL : nat -> nat -> nat -> R) (rho v : nat -> R) (q : nat -> R) (s0 : esys) : esys :=
  loop (f_ngp m) (fun ip s =>
    let nu := nf_nu m Cupw small gU gL rho v q ip in
    loop (f_npe m) (fun ir s =>
      let '(s, g) := loop (f_npe m) (fun ic x =>
          let '(s, g) := x in
          (addL ir ic (nu*nf_fac m gU ip ir ic*ipF m ip) s, g + nf_fac m gU ip ir ic*q ic)) (s, 0) in
      addB ir (- (nu*g*ipF m ip)) s) s) s0.
