(** Specification: the low-Mach conservation equations at a point, written with derivatives of the
    given fields (Coquelicot's is_derive).  Derivatives are unique, so each existential below has at
    most one witness: "balance" means that the derivatives exist and the equation holds. *)
From Coq Require Import Reals.
From Coquelicot Require Import Coquelicot.
From Verif Require Import MMS_Model.
Open Scope R_scope.

(** the field as a function of coordinate i (0,1,2 = x,y,z; 3 = time), and that coordinate *)
Definition along (i : nat) (f : field) (t x y z : R) : R -> R :=
  match i with
  | 0%nat => fun s => f t s y z | 1%nat => fun s => f t x s z | 2%nat => fun s => f t x y s
  | _ => fun s => f s x y z end.
Definition coord (i : nat) (t x y z : R) : R :=
  match i with 0%nat => x | 1%nat => y | 2%nat => z | _ => t end.
(** d f / d x_i = v at (t,x,y,z) *)
Definition pd (i : nat) (f : field) (t x y z v : R) : Prop := is_derive (along i f t x y z) (coord i t x y z) v.
Definition sum3 (f : nat -> R) : R := f 0%nat + f 1%nat + f 2%nat.

(** d rho/dt + div(rho u) = S *)
Definition continuity_balance (rho : field) (u : nat -> field) (S : R) (t x y z : R) : Prop :=
  exists (dm : R) (F : nat -> R),
    pd 3 rho t x y z dm /\
    (forall j, (j < 3)%nat -> pd j (fun t x y z => rho t x y z * u j t x y z) t x y z (F j)) /\
    S = dm + sum3 F.

(** d(rho q)/dt + div(rho u q) - div(gamma grad q) = S *)
Definition scalar_balance (rho : field) (u : nat -> field) (q : field) (gamma : R) (S : R) (t x y z : R) : Prop :=
  exists (dq : nat -> field) (dm : R) (F D : nat -> R),
    (forall j t x y z, (j < 3)%nat -> pd j q t x y z (dq j t x y z)) /\
    pd 3 (fun t x y z => rho t x y z * q t x y z) t x y z dm /\
    (forall j, (j < 3)%nat -> pd j (fun t x y z => rho t x y z * u j t x y z * q t x y z) t x y z (F j)) /\
    (forall j, (j < 3)%nat -> pd j (fun t x y z => gamma * dq j t x y z) t x y z (D j)) /\
    S = dm + sum3 F - sum3 D.

(** viscous stress mu (du_i/dx_j + du_j/dx_i) - c mu div u delta_ij from the velocity gradient
    G i j = du_i/dx_j; c is 2/3 times the include_divu switch *)
Definition stress (mu c : R) (G : nat -> nat -> field) (i j : nat) : field := fun t x y z =>
  mu * (G i j t x y z + G j i t x y z) - (if Nat.eqb i j then c * mu * sum3 (fun k => G k k t x y z) else 0).

(** d(rho u_i)/dt + d_j(rho u_j u_i) + d_i p - d_j tau_ij - b_i = S *)
Definition momentum_balance (rho : field) (u : nat -> field) (p : field) (mu c b S : R) (i : nat) (t x y z : R) : Prop :=
  exists (G : nat -> nat -> field) (dm dp : R) (F T : nat -> R),
    (forall a j t x y z, (a < 3)%nat -> (j < 3)%nat -> pd j (u a) t x y z (G a j t x y z)) /\
    pd 3 (fun t x y z => rho t x y z * u i t x y z) t x y z dm /\
    (forall j, (j < 3)%nat -> pd j (fun t x y z => rho t x y z * u j t x y z * u i t x y z) t x y z (F j)) /\
    (forall j, (j < 3)%nat -> pd j (stress mu c G i j) t x y z (T j)) /\
    pd i p t x y z dp /\
    S = dm + sum3 F + dp - sum3 T - b.

(** - div (k grad q) = S with unit conductivity *)
Definition conduction_balance (q : field) (S : R) (t x y z : R) : Prop :=
  exists (dq : nat -> field) (D : nat -> R),
    (forall j t x y z, (j < 3)%nat -> pd j q t x y z (dq j t x y z)) /\
    (forall j, (j < 3)%nat -> pd j (dq j) t x y z (D j)) /\
    S = - sum3 D.

(** the vector field g is the gradient of q everywhere *)
Definition is_gradient (q : field) (g : nat -> field) (dim : nat) : Prop :=
  forall j t x y z, (j < dim)%nat -> pd j q t x y z (g j t x y z).

(** densities of the property evaluators (C53, C54): mixture-fraction inverse mixing and ideal gas *)
Definition rho_mix (rhoP rhoS : R) (Z : field) : field := fun t x y z => / (Z t x y z / rhoP + (1 - Z t x y z) / rhoS).
Definition rho_gas (Pref MW Rgas : R) (T : field) : field := fun t x y z => Pref * MW / Rgas / T t x y z.
Definition rho_const (r : R) : field := fun t x y z => r.
