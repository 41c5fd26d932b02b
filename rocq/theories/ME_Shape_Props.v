(** * C30: shape functions form a nodal basis and the derivative tables are their derivatives *)
From Coq Require Import Reals List Arith Lra Lia Psatz.
From Coquelicot Require Import Coquelicot.
From Verif Require Import ME_Model ME_Shape_Model ME_Shape_Spec.
Import ListNotations.
Local Open Scope R_scope.

Definition everywhere (s : vec) : Prop := True.


Ltac shape_unfold := unfold interp, comp, tri3_shape, quad4_shape, quad4g_shape, tet4_shape, hex8_shape, hex8g_shape,
  wed6_shape, pyr5s_shape, pyr5_shape, tri6_shape, tet10_shape, quad9_shape, hex27_shape, edge2_shape.
Ltac node_unfold := unfold tri3_nodes, quad4_nodes, tet4_nodes, hex8_nodes, wed6_nodes, pyr5_nodes, edge2_nodes,
  tri6_nodes, tet10_nodes, quad9_nodes, hex27_nodes, of_list, square.
Ltac red_shape := cbn [seq map rsum fold_right nth app vx vy vz Nat.eqb].
Ltac each_i i := repeat (destruct i as [|i]; [ solve [shape_unfold; node_unfold; red_shape; field] | try (exfalso; lia)]).
Ltac basis :=
  constructor;
  [ intros s _; shape_unfold; red_shape; field
  | intros i j Hi Hj _; repeat (destruct j as [|j]; [ solve [each_i i] | try (exfalso; lia)])
  | intros s c _ Hc; repeat (destruct c as [|c]; [ solve [shape_unfold; node_unfold; red_shape; field] | try (exfalso; lia)]) ].

Theorem C30_tri3_basis : nodal_basis 3 2 everywhere tri3_nodes tri3_shape.
Proof. basis. Qed.
Theorem C30_quad4_basis : nodal_basis 4 2 everywhere (quad4_nodes (1/2)) quad4_shape.
Proof. basis. Qed.
Theorem C30_quad4_general_basis : nodal_basis 4 2 everywhere (quad4_nodes 1) quad4g_shape.
Proof. basis. Qed.
Theorem C30_tet4_basis : nodal_basis 4 3 everywhere tet4_nodes tet4_shape.
Proof. basis. Qed.
Theorem C30_hex8_basis : nodal_basis 8 3 everywhere (hex8_nodes (1/2)) hex8_shape.
Proof. basis. Qed.
Theorem C30_hex8_general_basis : nodal_basis 8 3 everywhere (hex8_nodes 1) hex8g_shape.
Proof. basis. Qed.
Theorem C30_wed6_basis : nodal_basis 6 3 everywhere wed6_nodes wed6_shape.
Proof. basis. Qed.
Theorem C30_edge2_basis : nodal_basis 2 1 everywhere edge2_nodes edge2_shape.
Proof. basis. Qed.
Theorem C30_tri6_basis : nodal_basis 6 2 everywhere tri6_nodes tri6_shape.
Proof. basis. Qed.
Theorem C30_tet10_basis : nodal_basis 10 3 everywhere tet10_nodes tet10_shape.
Proof. basis. Qed.
Theorem C30_quad9_basis : nodal_basis 9 2 everywhere quad9_nodes quad9_shape.
Proof. basis. Qed.
Theorem C30_hex27_basis : nodal_basis 27 3 everywhere hex27_nodes hex27_shape.
Proof. basis. Qed.

(** ** Derivative tables *)
Ltac deriv_unfold := unfold tri3_deriv, quad4_deriv, tet4_deriv, hex8_deriv, hex8g_deriv, hex8f_deriv, wed6_deriv,
  pyr5s_deriv, tri6_deriv, tet10_deriv, quad9_deriv, hex27_deriv.
Ltac one_deriv := apply is_derive_Reals; unfold shift; shape_unfold; deriv_unfold; cbn [vx vy vz];
  auto_derive; [trivial | field].
Ltac each_c c := repeat (destruct c as [|c]; [ solve [one_deriv] | try (exfalso; lia)]).
Ltac derivs := intros s i c _ Hi Hc; repeat (destruct i as [|i]; [ solve [each_c c] | try (exfalso; lia)]).
Theorem C30_tri3_derivatives : derivative_table 3 2 everywhere tri3_shape tri3_deriv.
Proof. derivs. Qed.
Theorem C30_quad4_derivatives : derivative_table 4 2 everywhere quad4_shape quad4_deriv.
Proof. derivs. Qed.
Theorem C30_tet4_derivatives : derivative_table 4 3 everywhere tet4_shape tet4_deriv.
Proof. derivs. Qed.
Theorem C30_hex8_derivatives : derivative_table 8 3 everywhere hex8_shape hex8_deriv.
Proof. derivs. Qed.
Theorem C30_hex8_fem_derivatives : derivative_table 8 3 everywhere hex8g_shape hex8g_deriv /\
  derivative_table 8 3 everywhere hex8g_shape hex8f_deriv.
Proof. split; derivs. Qed.
Theorem C30_wed6_derivatives : derivative_table 6 3 everywhere wed6_shape wed6_deriv.
Proof. derivs. Qed.
Theorem C30_pyr5_shifted_derivatives : derivative_table 5 3 everywhere pyr5s_shape pyr5s_deriv.
Proof. derivs. Qed.
Theorem C30_tri6_derivatives : derivative_table 6 2 everywhere tri6_shape tri6_deriv.
Proof. derivs. Qed.
Theorem C30_tet10_derivatives : derivative_table 10 3 everywhere tet10_shape tet10_deriv.
Proof. derivs. Qed.
Theorem C30_quad9_derivatives : derivative_table 9 2 everywhere quad9_shape quad9_deriv.
Proof. derivs. Qed.
Theorem C30_hex27_derivatives : derivative_table 27 3 everywhere hex27_shape hex27_deriv.
Proof. derivs. Qed.

(** ** Quadratic completeness *)
Ltac quads := intros s a b Ha Hb;
  repeat (destruct a as [|a]; [ solve [repeat (destruct b as [|b];
     [ solve [shape_unfold; node_unfold; red_shape; field] | try (exfalso; lia)])] | try (exfalso; lia)]).
Theorem C30_tri6_quadratic : reproduces_quadratics 6 2 tri6_nodes tri6_shape.
Proof. quads. Qed.
Theorem C30_tet10_quadratic : reproduces_quadratics 10 3 tet10_nodes tet10_shape.
Proof. quads. Qed.
Theorem C30_quad9_quadratic : reproduces_quadratics 9 2 quad9_nodes quad9_shape.
Proof. quads. Qed.
Theorem C30_hex27_quadratic : reproduces_quadratics 27 3 hex27_nodes hex27_shape.
Proof. quads. Qed.
