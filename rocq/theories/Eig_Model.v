(** Eigen-decomposition of symmetric matrices and the eigenvalue-perturbed turbulent scalar flux.
    Files: EigenDecomposition.C, AssembleScalarEigenEdgeSolverAlgorithm.C.
    Simplifications: real arithmetic (the exits "c==1.0" and "jr[3]==1.0" are kept as real equalities; 1.0f is 1); matrices are
    functions of row and column; a SIMD pack is a list of lanes, on which the element-wise operations of stk::simd act lane by lane. *)
Require Import Reals List Bool Arith.
From Verif Require Import Edge_Model.
Import ListNotations.
Open Scope R_scope.

Definition mat := nat -> nat -> R.

(** *** 2x2, EigenDecomposition.C 24-58 (the pack version, lines 269-305, is the same formula in every lane) *)
Definition sym_diagonalize2 (A : mat) : mat * mat :=
  let trace := A 0%nat 0%nat + A 1%nat 1%nat in
  let det := A 0%nat 0%nat * A 1%nat 1%nat - A 0%nat 1%nat * A 1%nat 0%nat in
  let z := if Req_EM_T (A 1%nat 0%nat) 0 then true else false in
  let D0 := if z then A 0%nat 0%nat else trace/2 + sqrt (trace*trace/4 - det) in
  let D1 := if z then A 1%nat 1%nat else trace/2 - sqrt (trace*trace/4 - det) in
  let q00 := - A 0%nat 1%nat in let q10 := A 0%nat 0%nat - D0 in
  let n0 := sqrt (q00*q00 + q10*q10) in
  let q01 := - A 1%nat 1%nat + D1 in let q11 := A 1%nat 0%nat in
  let n1 := sqrt (q01*q01 + q11*q11) in
  (fun i j => match i, j with
     | 0%nat, 0%nat => if z then 1 else q00/n0 | 0%nat, _ => if z then 0 else q01/n1
     | _, 0%nat => if z then 0 else q10/n0 | _, _ => if z then 1 else q11/n1 end,
   fun i j => match i, j with 0%nat, 0%nat => D0 | 1%nat, 1%nat => D1 | _, _ => 0 end).
(** matrix_matrix_multiply, lines 85-98 and 236-250, and reconstruct_matrix_from_decomposition, lines 63-80 and 214-231 *)
Definition mat_mul (n : nat) (A B : mat) : mat := fun i j => fold_left (fun s k => s + A i k * B k j) (seq 0 n) 0.
Definition reconstruct (n : nat) (D Q : mat) : mat := mat_mul n (mat_mul n Q D) (fun j i => Q i j).

(** *** 3x3: Jacobi rotations kept as a quaternion *)
Record quat4 := mkQ { q0_ : R; q1_ : R; q2_ : R; q3_ : R }.
(** lines 127-147: quaternion to matrix *)
Definition quat_mat (q : quat4) : mat := fun i j =>
  let sqx := q0_ q * q0_ q in let sqy := q1_ q * q1_ q in let sqz := q2_ q * q2_ q in let sqw := q3_ q * q3_ q in
  match i, j with
  | 0%nat, 0%nat => sqx - sqy - sqz + sqw | 1%nat, 1%nat => - sqx + sqy - sqz + sqw | 2%nat, 2%nat => - sqx - sqy + sqz + sqw
  | 1%nat, 0%nat => 2 * (q0_ q * q1_ q + q2_ q * q3_ q) | 0%nat, 1%nat => 2 * (q0_ q * q1_ q - q2_ q * q3_ q)
  | 2%nat, 0%nat => 2 * (q0_ q * q2_ q - q1_ q * q3_ q) | 0%nat, 2%nat => 2 * (q0_ q * q2_ q + q1_ q * q3_ q)
  | 2%nat, 1%nat => 2 * (q1_ q * q2_ q + q0_ q * q3_ q) | 1%nat, 2%nat => 2 * (q1_ q * q2_ q - q0_ q * q3_ q)
  | _, _ => 0 end.
(** lines 150-158: AQ reads only the upper triangle of A *)
Definition upper (A : mat) : mat := fun i j => if (i <=? j)%nat then A i j else A j i.
Definition AQ (A : mat) (q : quat4) : mat := fun i j =>
  quat_mat q 0%nat j * upper A i 0%nat + quat_mat q 1%nat j * upper A i 1%nat + quat_mat q 2%nat j * upper A i 2%nat.
(** lines 160-168: D = Qt AQ *)
Definition Dmat (A : mat) (q : quat4) : mat := fun i j =>
  AQ A q 0%nat i * quat_mat q 0%nat j + AQ A q 1%nat i * quat_mat q 1%nat j + AQ A q 2%nat i * quat_mat q 2%nat j.
(** lines 169-174 *)
Definition off (D : mat) (k : nat) : R := match k with 0%nat => D 1%nat 2%nat | 1%nat => D 0%nat 2%nat | _ => D 0%nat 1%nat end.
(** line 176 *)
Definition gtb (a b : R) : bool := if Rlt_dec b a then true else false.
Definition largest (D : mat) : nat :=
  let m k := Rabs (off D k) in
  if (gtb (m 0%nat) (m 1%nat) && gtb (m 0%nat) (m 2%nat))%bool then 0%nat else if gtb (m 1%nat) (m 2%nat) then 1%nat else 2%nat.
(** lines 182-186: t from theta *)
Definition jac_sgn (thet : R) : R := if Rlt_dec 0 thet then 1 else -1.
Definition jac_t (thet : R) : R :=
  let sgn := jac_sgn thet in
  let a := thet * sgn in
  sgn / (a + (if Rlt_dec a (10^6) then sqrt (a*a + 1) else a)).
(** lines 194-197 (pack: 459-462): the product is formed in place, so each component is computed from the components already overwritten *)
Definition quat_times (q j : quat4) : quat4 :=
  let n0 := q3_ q * q0_ j + q0_ q * q3_ j + q1_ q * q2_ j - q2_ q * q1_ j in
  let n1 := q3_ q * q1_ j - n0 * q2_ j + q1_ q * q3_ j + q2_ q * q0_ j in
  let n2 := q3_ q * q2_ j + n0 * q1_ j - n1 * q0_ j + q2_ q * q3_ j in
  let n3 := q3_ q * q3_ j - n0 * q0_ j - n1 * q1_ j - n2 * q2_ j in
  mkQ n0 n1 n2 n3.
(** lines 198-202 *)
Definition quat_len2 (q : quat4) : R := q0_ q * q0_ q + q1_ q * q1_ q + q2_ q * q2_ q + q3_ q * q3_ q.
Definition quat_unit (q : quat4) : quat4 := let mq := sqrt (quat_len2 q) in mkQ (q0_ q / mq) (q1_ q / mq) (q2_ q / mq) (q3_ q / mq).
(** jr with entry x at position k and w last *)
Definition jr_quat (k : nat) (x w : R) : quat4 := mkQ (if Nat.eqb k 0 then x else 0) (if Nat.eqb k 1 then x else 0) (if Nat.eqb k 2 then x else 0) w.
(** lines 176-206: one step; None: the loop is left *)
Definition jac_step (A : mat) (q : quat4) : option quat4 :=
  let D := Dmat A q in
  let k0 := largest D in let k1 := ((k0 + 1) mod 3)%nat in let k2 := ((k0 + 2) mod 3)%nat in
  if Req_EM_T (off D k0) 0 then None else
  let thet := (D k2 k2 - D k1 k1) / (2 * off D k0) in
  let t := jac_t thet in
  let c := 1 / sqrt (t*t + 1) in
  if Req_EM_T c 1 then None else
  let x := (jac_sgn thet * sqrt ((1 - c)/2)) * (-1) in
  let w := sqrt (1 - x*x) in
  if Req_EM_T w 1 then None else
  Some (quat_unit (quat_times q (jr_quat k0 x w))).
(** lines 125-207 with n+1 iterations: the quaternion whose matrices are in Q and D at the end *)
Fixpoint jac_loop (n : nat) (A : mat) (q : quat4) : quat4 :=
  match jac_step A q with None => q | Some q' => match n with O => q | S n' => jac_loop n' A q' end end.
Definition quat_one : quat4 := mkQ 0 0 0 1.
Definition sym_diagonalize3 (A : mat) : mat * mat := let q := jac_loop 23 A quat_one in (quat_mat q, Dmat A q).

(** *** pack version of the 3x3 case, lines 345-460: one lane's step: the new jr[3] (for the common exit) and the new quaternion *)
Definition lane_pick (D : mat) : option nat :=
  let m k := Rabs (off D k) in
  let p := if (gtb (m 0%nat) (m 1%nat) && gtb (m 0%nat) (m 2%nat))%bool then Some 0%nat else None in
  let p := if (gtb (m 1%nat) (m 2%nat) && gtb (m 1%nat) (m 0%nat))%bool then Some 1%nat else p in
  if (gtb (m 2%nat) (m 1%nat) && gtb (m 2%nat) (m 0%nat))%bool then Some 2%nat else p.
Definition lane_step (A : mat) (q : quat4) : R * quat4 :=
  let D := Dmat A q in
  let pick := lane_pick D in
  let oLarge := match pick with Some k => off D k | None => 0 end in
  let dDiff := match pick with Some k => D ((k + 2) mod 3)%nat ((k + 2) mod 3)%nat - D ((k + 1) mod 3)%nat ((k + 1) mod 3)%nat | None => 0 end in
  let z := if Req_EM_T oLarge 0 then true else false in
  let thet := if z then 1 else dDiff / (2*oLarge) in
  let sgn := jac_sgn thet in
  let a := thet * sgn in
  let t := if Rlt_dec a (10^6) then sgn / (a + sqrt (a*a + 1)) else (1/2)*sgn/a in
  let c := if z then 1 else 1 / sqrt (t*t + 1) in
  let x := match pick with Some _ => -1 * (sgn * sqrt ((1 - c)/2)) | None => 0 end in
  let w := sqrt (1 - x*x) in
  (w, quat_unit (quat_times q (jr_quat (match pick with Some k => k | None => 3%nat end) x w))).
Definition is_one (w : R) : bool := if Req_EM_T w 1 then true else false.
Fixpoint pack_loop (n : nat) (l : list (mat * quat4)) : list (mat * quat4) :=
  let s := map (fun Aq => lane_step (fst Aq) (snd Aq)) l in
  if forallb (fun wq => is_one (fst wq)) s then l else
  match n with O => l | S n' => pack_loop n' (combine (map fst l) (map snd s)) end.
Definition pack_diagonalize3 (As : list mat) : list (mat * mat) :=
  map (fun Aq => (quat_mat (snd Aq), Dmat (fst Aq) (snd Aq))) (pack_loop 23 (map (fun A => (A, quat_one)) As)).

(** *** AssembleScalarEigenEdgeSolverAlgorithm.C *)
(** lines 90-106: BinvXt_ *)
Definition bias (towards k : nat) : R :=
  match towards, k with 1%nat, 0%nat => 2/3 | 1%nat, _ => -1/3 | 2%nat, 2%nat => -1/3 | 2%nat, _ => 1/6 | _, _ => 0 end.
(** sort, lines 498-530: selection sort of the diagonal; state: (data, rowMap_) *)
Definition swap {T} (f : nat -> T) (i j : nat) : nat -> T := fun k => if Nat.eqb k i then f j else if Nat.eqb k j then f i else f k.
Definition sort_pass (st : (nat -> R) * (nat -> nat)) (i : nat) : (nat -> R) * (nat -> nat) :=
  let data := fst st in
  let j := fold_left (fun j k => if Rlt_dec (data j) (data k) then k else j) (seq i (3 - i)) i in
  (swap data i j, swap (snd st) i j).
Definition row_map (D : mat) : nat -> nat := snd (fold_left sort_pass (seq 0 3) (fun k => D k k, fun k => k)).
(** perturb, lines 535-552 *)
Definition perturb (delta : R) (towards : nat) (D : mat) : mat :=
  let r := row_map D in
  let upd (D' : mat) k := fun i j => if (Nat.eqb i (r k) && Nat.eqb j (r k))%bool then (1 - delta) * D (r k) (r k) + delta * bias towards k else D' i j in
  upd (upd (upd D 0%nat) 1%nat) 2%nat.
(** nodal fields *)
Record eig_fields := mkEF { g_sc : sc_fields; g_u : nat -> vec; g_dudx : nat -> nat -> vec; g_k : nat -> R; g_mut : nat -> R }.
Record eig_opts := mkEO { h_sigma : R; h_cGGDH : R; h_delta : R; h_pertK : R; h_towards : nat; h_divU : R; h_nocVel : bool }.
(** lines 270-294: edge gradient with non-orthogonal part; also lines 314-330 for the scalar *)
Definition edge_grad (d : nat) (noc : bool) (x : nat -> vec) (q : nat -> R) (G : nat -> vec) (e : edge) (j : nat) : R :=
  let nf := if noc then 1 else 0 in
  let Gl l := (1/2)*(G (eL e) l + G (eR e) l) in
  let Gdx := sumn d (fun l => Gl l * dxj x e l) in
  Gl j * nf + ((q (eR e) - q (eL e)) - Gdx*nf) * eA e j * (1 / e_axdx d x e).
(** lines 296-311 *)
Definition strain_mag (d : nat) (g : mat) : R := sqrt (2 * sumn d (fun i => sumn d (fun j => ((1/2)*(g i j + g j i)) * ((1/2)*(g i j + g j i))))).
(** lines 332-338: normalised stress; entries beyond the dimension keep what was in b_ before *)
Definition norm_stress (d : nat) (divUfac nut k : R) (g bold : mat) : mat := fun i j =>
  if ((i <? d) && (j <? d))%nat%bool
  then (- nut * (g i j + g j i - (if Nat.eqb i j then 2/3 * sumn d (fun l => g l l) * divUfac else 0))) / (2*k)
  else bold i j.
(** lines 340-361: new b_ and the stress R_ *)
Definition pert_stress (delta pertK : R) (towards : nat) (k : R) (b : mat) : mat * mat :=
  let QD := sym_diagonalize3 b in
  let b' := reconstruct 3 (perturb delta towards (snd QD)) (fst QD) in
  let kp := Rmax (k * (1 + pertK)) (1/10^16) in
  (b', fun i j => (b' i j + (if Nat.eqb i j then 1/3 else 0)) * 2 * kp).
(** lines 247-266 and 340-361 for edge e: density, turbulent energy and stress there *)
Definition rho_ip (f : sc_fields) (e : edge) : R := (1/2)*(f_rho f (eL e) + f_rho f (eR e)).
Definition k_ip (g : eig_fields) (e : edge) : R := (1/2)*(Rmax (g_k g (eL e)) (1/10^16) + Rmax (g_k g (eR e)) (1/10^16)).
Definition nut_ip (h : eig_opts) (g : eig_fields) (e : edge) : R := (1/2)*(g_mut g (eL e) + g_mut g (eR e)) / h_sigma h / rho_ip (g_sc g) e.
Definition edge_dudx (d : nat) (h : eig_opts) (g : eig_fields) (e : edge) : mat := fun i =>
  edge_grad d (h_nocVel h) (f_x (g_sc g)) (fun n => g_u g n i) (fun n => g_dudx g n i) e.
Definition edge_stress (d : nat) (h : eig_opts) (g : eig_fields) (bold : mat) (e : edge) : mat * mat :=
  pert_stress (h_delta h) (h_pertK h) (h_towards h) (k_ip g e) (norm_stress d (h_divU h) (nut_ip h g e) (k_ip g e) (edge_dudx d h g e) bold).
(** lines 363-475: the 2x2 contribution.  f_diff holds conductivity over specific heat; the Peclet number uses its mean over the mean
    density; unlike the plain scalar operator the non-orthogonal part of the laminar flux is always on *)
Definition eig_pecfac (o : sc_opts) (f : sc_fields) (e : edge) : R :=
  o_peclet o (Rabs (e_udotx (o_ndim o) (f_x f) (f_vrtm f) e) / (visc_ip (f_diff f) e / rho_ip f e + o_small o)).
Definition gg_coef (d : nat) (h : eig_opts) (g : eig_fields) (Rs : mat) (e : edge) (i j : nat) : R :=
  - h_cGGDH h * (1 / strain_mag d (edge_dudx d h g e)) * rho_ip (g_sc g) e * Rs i j * eA e j.
Definition eig_edge (o : sc_opts) (h : eig_opts) (g : eig_fields) (mdot : edge -> R) (bold : mat) (e : edge) : mat * edge_sys :=
  let d := o_ndim o in let f := g_sc g in
  let bR := edge_stress d h g bold e in
  let gg := gg_coef d h g (snd bR) e in
  let inv := 1 / e_axdx d (f_x f) e in
  let dq := edge_grad d (o_noc o) (f_x f) (f_q f) (f_dqdx f) e in
  let lhsfac := fold_left (fun s i => fold_left (fun s j => s + gg i j * eA e i * inv) (seq 0 d) s) (seq 0 d) (e_lhsfac o f e) in
  let diffFlux := fold_left (fun s i => fold_left (fun s j => s + gg i j * dq i) (seq 0 d) s) (seq 0 d)
                    (e_lhsfac o f e * (f_q f (eR e) - f_q f (eL e)) + e_nonorth d f e) in
  let m := mdot e in
  let pf := eig_pecfac o f e in
  let qIpL := e_qIpL o f e in let qIpR := e_qIpR o f e in
  let qIp := (1/2)*(f_q f (eL e) + f_q f (eR e)) in
  let qUpwind := if Rlt_dec 0 m then o_alphaUpw o*qIpL + (1 - o_alphaUpw o)*qIp else o_alphaUpw o*qIpR + (1 - o_alphaUpw o)*qIp in
  let qCds := (1/2)*((o_alpha o*qIpL + (1 - o_alpha o)*qIp) + (o_alpha o*qIpR + (1 - o_alpha o)*qIp)) in
  let aflux := m * (pf*qUpwind + (1 - pf)*qCds) in
  let a1 := (1/2)*(m + Rabs m)*pf*o_alphaUpw o + (1/2)*o_alpha o*(1-pf)*m in
  let a2 := (1/2)*(m - Rabs m)*pf*o_alphaUpw o + (1/2)*o_alpha o*(1-pf)*m in
  let a3 := (1/2)*m*(pf*(1 - o_alphaUpw o) + (1-pf)*(1 - o_alpha o)) in
  (fst bR, mkSys (- lhsfac + a1 + a3) (lhsfac + a2 + a3) (lhsfac - a1 - a3) (- lhsfac - a2 - a3) (- diffFlux - aflux) (diffFlux + aflux)).
