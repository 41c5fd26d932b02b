(** * C31, volumes: the sub control volumes of an element add up to its volume *)
From Coq Require Import Reals List Arith Lra Lia.
From Coquelicot Require Import Coquelicot.
From Verif Require Import ME_Model ME_Spec ME_Props.
Import ListNotations.
Local Open Scope R_scope.

(** ** Volumes *)
Lemma facet_cyc p q r : facet_term p q r = facet_term q r p.
Proof. unfold facet_term. ring. Qed.
Lemma facet_swap p q r : facet_term q p r = - facet_term p q r.
Proof. unfold facet_term. ring. Qed.
Lemma facet_triangle p q r : triangle_flux p q r = facet_term p q r / 6.
Proof. unfold triangle_flux, facet_term, dot, vprod. cbn. field. Qed.

(** Flux through the four triangles joining the corners of a quad to its mid point. *)
Definition qf (a b c d : vec) : R :=
  facet_term (avg4 a b c d) a b + facet_term (avg4 a b c d) b c + facet_term (avg4 a b c d) c d
  + facet_term (avg4 a b c d) d a.
(** Bent along b-d. *)
Definition bf (a b c d : vec) : R :=
  facet_term (avg2 b d) a b + facet_term (avg2 b d) b c + facet_term (avg2 b d) c d
  + facet_term (avg2 b d) d a.
Lemma qf_rev a b c d : qf d c b a = - qf a b c d.
Proof. unfold qf, facet_term. cbn. field. Qed.
Lemma qf_cyc a b c d : qf a b c d = qf b c d a.
Proof. unfold qf, facet_term. cbn. field. Qed.
Lemma bf_triangles a b c d : bf a b c d = facet_term a b d + facet_term b c d.
Proof. unfold bf, facet_term. cbn. field. Qed.
Lemma qf_split a b c d :
  qf a b c d = qf a (avg2 a b) (avg4 a b c d) (avg2 d a) + qf (avg2 a b) b (avg2 b c) (avg4 a b c d)
     + qf (avg4 a b c d) (avg2 b c) c (avg2 c d) + qf (avg2 d a) (avg4 a b c d) (avg2 c d) d.
Proof. unfold qf, facet_term. cbn. field. Qed.
Lemma tri_split a b c :
  facet_term a b c = qf a (avg2 a b) (avg3 a b c) (avg2 c a) + qf (avg2 a b) b (avg2 b c) (avg3 a b c)
     + qf (avg3 a b c) (avg2 b c) c (avg2 c a).
Proof. unfold qf, facet_term. cbn. field. Qed.
Lemma qf_degenerate a b c : qf a a b c = facet_term a b c.
Proof. unfold qf, facet_term. cbn. field. Qed.

Lemma grandy_faces h : hex_volume_grandy h =
  (qf (h 0%nat) (h 3%nat) (h 2%nat) (h 1%nat)
   + qf (h 4%nat) (h 5%nat) (h 6%nat) (h 7%nat)
   + qf (h 0%nat) (h 1%nat) (h 5%nat) (h 4%nat)
   + qf (h 2%nat) (h 3%nat) (h 7%nat) (h 6%nat)
   + qf (h 1%nat) (h 2%nat) (h 6%nat) (h 5%nat)
   + qf (h 0%nat) (h 4%nat) (h 7%nat) (h 3%nat)) / 18.
Proof. unfold hex_volume_grandy, polyhedral_volume_by_faces, qf, facet_term. cbn. field. Qed.
Lemma bent_faces h : bhex_volume_grandy h =
  (bf (h 4%nat) (h 5%nat) (h 6%nat) (h 7%nat)
   + qf (h 0%nat) (h 3%nat) (h 2%nat) (h 1%nat)
   + qf (h 0%nat) (h 1%nat) (h 5%nat) (h 4%nat)
   + qf (h 2%nat) (h 3%nat) (h 7%nat) (h 6%nat)
   + qf (h 1%nat) (h 2%nat) (h 6%nat) (h 5%nat)
   + qf (h 0%nat) (h 4%nat) (h 7%nat) (h 3%nat)) / 18.
Proof. unfold bhex_volume_grandy, polyhedral_volume_by_faces, qf, bf, facet_term. cbn. field. Qed.

(** Simpson's rule is exact for quadratics. *)
Lemma RInt_quadratic (f : R -> R) (a b c : R) :
  (forall x, f x = a + b * x + c * (x * x)) -> RInt f 0 1 = a + b / 2 + c / 3.
Proof.
  intros H. rewrite (RInt_ext f (fun x => a + b * x + c * (x * x))) by (intros; apply H).
  apply is_RInt_unique.
  replace (a + b / 2 + c / 3) with (minus (a * 1 + b * (1 * 1) / 2 + c * (1 * 1 * 1) / 3) (a * 0 + b * (0*0) / 2 + c * (0*0*0) / 3))
    by (unfold minus, plus, opp; cbn; field).
  apply (is_RInt_derive (fun x => a * x + b * (x * x) / 2 + c * (x * x * x) / 3)).
  - intros x _. auto_derive; [exact I|]. match goal with |- ?a = ?b => change (@eq R a b) end. field.
  - intros x _. apply (ex_derive_continuous (fun x => a + b * x + c * (x * x))). auto_derive. exact I.
Qed.
Lemma RInt_simpson (f : R -> R) :
  (forall x, f x = f 0 + (4 * f (1/2) - 3 * f 0 - f 1) * x + (2 * f 0 + 2 * f 1 - 4 * f (1/2)) * (x * x)) ->
  RInt f 0 1 = (f 0 + 4 * f (1/2) + f 1) / 6.
Proof. intros H. rewrite (RInt_quadratic f _ _ _ H). match goal with |- ?a = ?b => change (@eq R a b) end. field. Qed.

Lemma patch_flux_qf a b c d : patch_flux a b c d = qf a b c d / 6.
Proof.
  unfold patch_flux.
  set (f := fun u v => dot (patch a b c d u v) (vprod (patch_u a b c d v) (patch_v a b c d u))).
  rewrite (RInt_ext _ (fun u => (f u 0 + 4 * f u (1/2) + f u 1) / 6)).
  2:{ intros u _. apply (RInt_simpson (f u)). intros v. unfold f, dot, patch, patch_u, patch_v. cbn. field. }
  rewrite (RInt_simpson (fun u => (f u 0 + 4 * f u (1/2) + f u 1) / 6)).
  2:{ intros v. unfold f, dot, patch, patch_u, patch_v. cbn. field. }
  unfold f, dot, patch, patch_u, patch_v, qf, facet_term. cbn. field.
Qed.

Lemma qf_c2 a b c d : qf a b c d = qf c d a b. Proof. rewrite qf_cyc. apply qf_cyc. Qed.
Lemma qf_c3 a b c d : qf a b c d = qf d a b c. Proof. symmetry. apply qf_cyc. Qed.
Lemma qf_r0 a b c d : qf a b c d = - qf d c b a. Proof. apply qf_rev. Qed.
Lemma qf_r1 a b c d : qf a b c d = - qf c b a d. Proof. rewrite qf_r0. f_equal. apply qf_cyc. Qed.
Lemma qf_r2 a b c d : qf a b c d = - qf b a d c. Proof. rewrite qf_r0. f_equal. apply qf_c2. Qed.
Lemma qf_r3 a b c d : qf a b c d = - qf a d c b. Proof. rewrite qf_r0. f_equal. apply qf_c3. Qed.
Ltac qcan := first [apply qf_cyc | apply qf_c2 | apply qf_c3 | apply qf_r0 | apply qf_r1 | apply qf_r2 | apply qf_r3].
Lemma octo_faces v : octohedron_volume v = (bf (v 1%nat) (v 3%nat) (v 2%nat) (v 9%nat) + bf (v 1%nat) (v 5%nat) (v 4%nat) (v 3%nat) + bf (v 1%nat) (v 7%nat) (v 6%nat) (v 5%nat) + bf (v 1%nat) (v 9%nat) (v 8%nat) (v 7%nat) + facet_term (v 4%nat) (v 5%nat) (v 0%nat) + facet_term (v 5%nat) (v 6%nat) (v 0%nat) + facet_term (v 6%nat) (v 7%nat) (v 0%nat) + facet_term (v 7%nat) (v 8%nat) (v 0%nat) + facet_term (v 0%nat) (v 8%nat) (v 9%nat) + facet_term (v 0%nat) (v 9%nat) (v 2%nat) + facet_term (v 0%nat) (v 2%nat) (v 3%nat) + facet_term (v 0%nat) (v 3%nat) (v 4%nat)) / 18.
Proof. unfold octohedron_volume, polyhedral_volume_by_faces, bf, facet_term, avg2. cbn. field. Qed.

(** The sub control volumes of every hexahedron sum to the volume its faces enclose. *)
Theorem C31_hex8_volumes_fill : forall X,
  rsum (map (hex_scv_volume X) (seq 0 8)) = enclosed_volume hex_faces X.
Proof.
  intros X. cbn [seq map rsum fold_right].
  unfold enclosed_volume. cbn [hex_faces map face_flux rsum fold_right].
  rewrite ?patch_flux_qf, ?facet_triangle.
  pose (P := subdivide_hex_8 X).
  assert (V0 : hex_scv_volume X 0 = (qf (P 0%nat) (P 11%nat) (P 12%nat) (P 8%nat) + qf (P 19%nat) (P 20%nat) (P 26%nat) (P 25%nat) + qf (P 0%nat) (P 8%nat) (P 20%nat) (P 19%nat) + qf (P 12%nat) (P 11%nat) (P 25%nat) (P 26%nat) + qf (P 8%nat) (P 12%nat) (P 26%nat) (P 20%nat) + qf (P 0%nat) (P 19%nat) (P 25%nat) (P 11%nat)) / 18) by (unfold hex_scv_volume; cbn [Nat.ltb Nat.leb]; rewrite grandy_faces; reflexivity).
  assert (V1 : hex_scv_volume X 1 = (qf (P 8%nat) (P 12%nat) (P 9%nat) (P 1%nat) + qf (P 20%nat) (P 18%nat) (P 24%nat) (P 26%nat) + qf (P 8%nat) (P 1%nat) (P 18%nat) (P 20%nat) + qf (P 9%nat) (P 12%nat) (P 26%nat) (P 24%nat) + qf (P 1%nat) (P 9%nat) (P 24%nat) (P 18%nat) + qf (P 8%nat) (P 20%nat) (P 26%nat) (P 12%nat)) / 18) by (unfold hex_scv_volume; cbn [Nat.ltb Nat.leb]; rewrite grandy_faces; reflexivity).
  assert (V2 : hex_scv_volume X 2 = (qf (P 12%nat) (P 10%nat) (P 2%nat) (P 9%nat) + qf (P 26%nat) (P 24%nat) (P 22%nat) (P 23%nat) + qf (P 12%nat) (P 9%nat) (P 24%nat) (P 26%nat) + qf (P 2%nat) (P 10%nat) (P 23%nat) (P 22%nat) + qf (P 9%nat) (P 2%nat) (P 22%nat) (P 24%nat) + qf (P 12%nat) (P 26%nat) (P 23%nat) (P 10%nat)) / 18) by (unfold hex_scv_volume; cbn [Nat.ltb Nat.leb]; rewrite grandy_faces; reflexivity).
  assert (V3 : hex_scv_volume X 3 = (qf (P 11%nat) (P 3%nat) (P 10%nat) (P 12%nat) + qf (P 25%nat) (P 26%nat) (P 23%nat) (P 21%nat) + qf (P 11%nat) (P 12%nat) (P 26%nat) (P 25%nat) + qf (P 10%nat) (P 3%nat) (P 21%nat) (P 23%nat) + qf (P 12%nat) (P 10%nat) (P 23%nat) (P 26%nat) + qf (P 11%nat) (P 25%nat) (P 21%nat) (P 3%nat)) / 18) by (unfold hex_scv_volume; cbn [Nat.ltb Nat.leb]; rewrite grandy_faces; reflexivity).
  assert (V4 : hex_scv_volume X 4 = (qf (P 19%nat) (P 25%nat) (P 26%nat) (P 20%nat) + qf (P 4%nat) (P 13%nat) (P 17%nat) (P 16%nat) + qf (P 19%nat) (P 20%nat) (P 13%nat) (P 4%nat) + qf (P 26%nat) (P 25%nat) (P 16%nat) (P 17%nat) + qf (P 20%nat) (P 26%nat) (P 17%nat) (P 13%nat) + qf (P 19%nat) (P 4%nat) (P 16%nat) (P 25%nat)) / 18) by (unfold hex_scv_volume; cbn [Nat.ltb Nat.leb]; rewrite grandy_faces; reflexivity).
  assert (V5 : hex_scv_volume X 5 = (qf (P 20%nat) (P 26%nat) (P 24%nat) (P 18%nat) + qf (P 13%nat) (P 5%nat) (P 14%nat) (P 17%nat) + qf (P 20%nat) (P 18%nat) (P 5%nat) (P 13%nat) + qf (P 24%nat) (P 26%nat) (P 17%nat) (P 14%nat) + qf (P 18%nat) (P 24%nat) (P 14%nat) (P 5%nat) + qf (P 20%nat) (P 13%nat) (P 17%nat) (P 26%nat)) / 18) by (unfold hex_scv_volume; cbn [Nat.ltb Nat.leb]; rewrite grandy_faces; reflexivity).
  assert (V6 : hex_scv_volume X 6 = (qf (P 26%nat) (P 23%nat) (P 22%nat) (P 24%nat) + qf (P 17%nat) (P 14%nat) (P 6%nat) (P 15%nat) + qf (P 26%nat) (P 24%nat) (P 14%nat) (P 17%nat) + qf (P 22%nat) (P 23%nat) (P 15%nat) (P 6%nat) + qf (P 24%nat) (P 22%nat) (P 6%nat) (P 14%nat) + qf (P 26%nat) (P 17%nat) (P 15%nat) (P 23%nat)) / 18) by (unfold hex_scv_volume; cbn [Nat.ltb Nat.leb]; rewrite grandy_faces; reflexivity).
  assert (V7 : hex_scv_volume X 7 = (qf (P 25%nat) (P 21%nat) (P 23%nat) (P 26%nat) + qf (P 16%nat) (P 17%nat) (P 15%nat) (P 7%nat) + qf (P 25%nat) (P 26%nat) (P 17%nat) (P 16%nat) + qf (P 23%nat) (P 21%nat) (P 7%nat) (P 15%nat) + qf (P 26%nat) (P 23%nat) (P 15%nat) (P 17%nat) + qf (P 25%nat) (P 16%nat) (P 7%nat) (P 21%nat)) / 18) by (unfold hex_scv_volume; cbn [Nat.ltb Nat.leb]; rewrite grandy_faces; reflexivity).
  assert (E0 : qf (P 8%nat) (P 20%nat) (P 26%nat) (P 12%nat) = - (qf (P 8%nat) (P 12%nat) (P 26%nat) (P 20%nat))) by qcan.
  assert (E1 : qf (P 12%nat) (P 9%nat) (P 24%nat) (P 26%nat) = - (qf (P 9%nat) (P 12%nat) (P 26%nat) (P 24%nat))) by qcan.
  assert (E2 : qf (P 11%nat) (P 12%nat) (P 26%nat) (P 25%nat) = - (qf (P 12%nat) (P 11%nat) (P 25%nat) (P 26%nat))) by qcan.
  assert (E3 : qf (P 12%nat) (P 10%nat) (P 23%nat) (P 26%nat) = - (qf (P 12%nat) (P 26%nat) (P 23%nat) (P 10%nat))) by qcan.
  assert (E4 : qf (P 19%nat) (P 25%nat) (P 26%nat) (P 20%nat) = - (qf (P 19%nat) (P 20%nat) (P 26%nat) (P 25%nat))) by qcan.
  assert (E5 : qf (P 20%nat) (P 26%nat) (P 24%nat) (P 18%nat) = - (qf (P 20%nat) (P 18%nat) (P 24%nat) (P 26%nat))) by qcan.
  assert (E6 : qf (P 20%nat) (P 13%nat) (P 17%nat) (P 26%nat) = - (qf (P 20%nat) (P 26%nat) (P 17%nat) (P 13%nat))) by qcan.
  assert (E7 : qf (P 26%nat) (P 23%nat) (P 22%nat) (P 24%nat) = - (qf (P 26%nat) (P 24%nat) (P 22%nat) (P 23%nat))) by qcan.
  assert (E8 : qf (P 26%nat) (P 24%nat) (P 14%nat) (P 17%nat) = - (qf (P 24%nat) (P 26%nat) (P 17%nat) (P 14%nat))) by qcan.
  assert (E9 : qf (P 25%nat) (P 21%nat) (P 23%nat) (P 26%nat) = - (qf (P 25%nat) (P 26%nat) (P 23%nat) (P 21%nat))) by qcan.
  assert (E10 : qf (P 25%nat) (P 26%nat) (P 17%nat) (P 16%nat) = - (qf (P 26%nat) (P 25%nat) (P 16%nat) (P 17%nat))) by qcan.
  assert (E11 : qf (P 26%nat) (P 23%nat) (P 15%nat) (P 17%nat) = - (qf (P 26%nat) (P 17%nat) (P 15%nat) (P 23%nat))) by qcan.
  assert (F0 : qf (X 0%nat) (X 1%nat) (X 5%nat) (X 4%nat) = (qf (P 0%nat) (P 8%nat) (P 20%nat) (P 19%nat)) + (qf (P 8%nat) (P 1%nat) (P 18%nat) (P 20%nat)) + (qf (P 20%nat) (P 18%nat) (P 5%nat) (P 13%nat)) + (qf (P 19%nat) (P 20%nat) (P 13%nat) (P 4%nat))) by (unfold qf, facet_term, P; cbn; field).
  assert (F1 : qf (X 1%nat) (X 2%nat) (X 6%nat) (X 5%nat) = (qf (P 1%nat) (P 9%nat) (P 24%nat) (P 18%nat)) + (qf (P 9%nat) (P 2%nat) (P 22%nat) (P 24%nat)) + (qf (P 24%nat) (P 22%nat) (P 6%nat) (P 14%nat)) + (qf (P 18%nat) (P 24%nat) (P 14%nat) (P 5%nat))) by (unfold qf, facet_term, P; cbn; field).
  assert (F2 : qf (X 2%nat) (X 3%nat) (X 7%nat) (X 6%nat) = (qf (P 2%nat) (P 10%nat) (P 23%nat) (P 22%nat)) + (qf (P 10%nat) (P 3%nat) (P 21%nat) (P 23%nat)) + (qf (P 23%nat) (P 21%nat) (P 7%nat) (P 15%nat)) + (qf (P 22%nat) (P 23%nat) (P 15%nat) (P 6%nat))) by (unfold qf, facet_term, P; cbn; field).
  assert (F3 : qf (X 0%nat) (X 4%nat) (X 7%nat) (X 3%nat) = (qf (P 0%nat) (P 19%nat) (P 25%nat) (P 11%nat)) + (qf (P 19%nat) (P 4%nat) (P 16%nat) (P 25%nat)) + (qf (P 25%nat) (P 16%nat) (P 7%nat) (P 21%nat)) + (qf (P 11%nat) (P 25%nat) (P 21%nat) (P 3%nat))) by (unfold qf, facet_term, P; cbn; field).
  assert (F4 : qf (X 0%nat) (X 3%nat) (X 2%nat) (X 1%nat) = (qf (P 0%nat) (P 11%nat) (P 12%nat) (P 8%nat)) + (qf (P 11%nat) (P 3%nat) (P 10%nat) (P 12%nat)) + (qf (P 12%nat) (P 10%nat) (P 2%nat) (P 9%nat)) + (qf (P 8%nat) (P 12%nat) (P 9%nat) (P 1%nat))) by (unfold qf, facet_term, P; cbn; field).
  assert (F5 : qf (X 4%nat) (X 5%nat) (X 6%nat) (X 7%nat) = (qf (P 4%nat) (P 13%nat) (P 17%nat) (P 16%nat)) + (qf (P 13%nat) (P 5%nat) (P 14%nat) (P 17%nat)) + (qf (P 17%nat) (P 14%nat) (P 6%nat) (P 15%nat)) + (qf (P 16%nat) (P 17%nat) (P 15%nat) (P 7%nat))) by (unfold qf, facet_term, P; cbn; field).
  rewrite V0, V1, V2, V3, V4, V5, V6, V7. clear V0 V1 V2 V3 V4 V5 V6 V7. clearbody P. lra.
Qed.

(** The sub control volumes of every tetrahedron sum to the volume its faces enclose. *)
Theorem C31_tet4_volumes_fill : forall X,
  rsum (map (tet_scv_volume X) (seq 0 4)) = enclosed_volume tet_faces X.
Proof.
  intros X. cbn [seq map rsum fold_right].
  unfold enclosed_volume. cbn [tet_faces map face_flux rsum fold_right].
  rewrite ?patch_flux_qf, ?facet_triangle.
  pose (P := tet_points X).
  assert (V0 : tet_scv_volume X 0 = (qf (P 0%nat) (P 6%nat) (P 7%nat) (P 4%nat) + qf (P 11%nat) (P 13%nat) (P 14%nat) (P 12%nat) + qf (P 0%nat) (P 4%nat) (P 13%nat) (P 11%nat) + qf (P 7%nat) (P 6%nat) (P 12%nat) (P 14%nat) + qf (P 4%nat) (P 7%nat) (P 14%nat) (P 13%nat) + qf (P 0%nat) (P 11%nat) (P 12%nat) (P 6%nat)) / 18) by (unfold tet_scv_volume; cbn [Nat.ltb Nat.leb]; rewrite grandy_faces; reflexivity).
  assert (V1 : tet_scv_volume X 1 = (qf (P 1%nat) (P 4%nat) (P 7%nat) (P 5%nat) + qf (P 9%nat) (P 10%nat) (P 14%nat) (P 13%nat) + qf (P 1%nat) (P 5%nat) (P 10%nat) (P 9%nat) + qf (P 7%nat) (P 4%nat) (P 13%nat) (P 14%nat) + qf (P 5%nat) (P 7%nat) (P 14%nat) (P 10%nat) + qf (P 1%nat) (P 9%nat) (P 13%nat) (P 4%nat)) / 18) by (unfold tet_scv_volume; cbn [Nat.ltb Nat.leb]; rewrite grandy_faces; reflexivity).
  assert (V2 : tet_scv_volume X 2 = (qf (P 2%nat) (P 5%nat) (P 7%nat) (P 6%nat) + qf (P 8%nat) (P 12%nat) (P 14%nat) (P 10%nat) + qf (P 2%nat) (P 6%nat) (P 12%nat) (P 8%nat) + qf (P 7%nat) (P 5%nat) (P 10%nat) (P 14%nat) + qf (P 6%nat) (P 7%nat) (P 14%nat) (P 12%nat) + qf (P 2%nat) (P 8%nat) (P 10%nat) (P 5%nat)) / 18) by (unfold tet_scv_volume; cbn [Nat.ltb Nat.leb]; rewrite grandy_faces; reflexivity).
  assert (V3 : tet_scv_volume X 3 = (qf (P 3%nat) (P 11%nat) (P 13%nat) (P 9%nat) + qf (P 8%nat) (P 10%nat) (P 14%nat) (P 12%nat) + qf (P 3%nat) (P 9%nat) (P 10%nat) (P 8%nat) + qf (P 13%nat) (P 11%nat) (P 12%nat) (P 14%nat) + qf (P 9%nat) (P 13%nat) (P 14%nat) (P 10%nat) + qf (P 3%nat) (P 8%nat) (P 12%nat) (P 11%nat)) / 18) by (unfold tet_scv_volume; cbn [Nat.ltb Nat.leb]; rewrite grandy_faces; reflexivity).
  assert (E0 : qf (P 7%nat) (P 4%nat) (P 13%nat) (P 14%nat) = - (qf (P 4%nat) (P 7%nat) (P 14%nat) (P 13%nat))) by qcan.
  assert (E1 : qf (P 7%nat) (P 5%nat) (P 10%nat) (P 14%nat) = - (qf (P 5%nat) (P 7%nat) (P 14%nat) (P 10%nat))) by qcan.
  assert (E2 : qf (P 6%nat) (P 7%nat) (P 14%nat) (P 12%nat) = - (qf (P 7%nat) (P 6%nat) (P 12%nat) (P 14%nat))) by qcan.
  assert (E3 : qf (P 8%nat) (P 10%nat) (P 14%nat) (P 12%nat) = - (qf (P 8%nat) (P 12%nat) (P 14%nat) (P 10%nat))) by qcan.
  assert (E4 : qf (P 13%nat) (P 11%nat) (P 12%nat) (P 14%nat) = - (qf (P 11%nat) (P 13%nat) (P 14%nat) (P 12%nat))) by qcan.
  assert (E5 : qf (P 9%nat) (P 13%nat) (P 14%nat) (P 10%nat) = - (qf (P 9%nat) (P 10%nat) (P 14%nat) (P 13%nat))) by qcan.
  assert (F0 : facet_term (X 0%nat) (X 1%nat) (X 3%nat) = (qf (P 0%nat) (P 4%nat) (P 13%nat) (P 11%nat)) + (qf (P 1%nat) (P 9%nat) (P 13%nat) (P 4%nat)) + (qf (P 3%nat) (P 11%nat) (P 13%nat) (P 9%nat))) by (unfold qf, facet_term, P; cbn; field).
  assert (F1 : facet_term (X 1%nat) (X 2%nat) (X 3%nat) = (qf (P 1%nat) (P 5%nat) (P 10%nat) (P 9%nat)) + (qf (P 2%nat) (P 8%nat) (P 10%nat) (P 5%nat)) + (qf (P 3%nat) (P 9%nat) (P 10%nat) (P 8%nat))) by (unfold qf, facet_term, P; cbn; field).
  assert (F2 : facet_term (X 0%nat) (X 3%nat) (X 2%nat) = (qf (P 0%nat) (P 11%nat) (P 12%nat) (P 6%nat)) + (qf (P 3%nat) (P 8%nat) (P 12%nat) (P 11%nat)) + (qf (P 2%nat) (P 6%nat) (P 12%nat) (P 8%nat))) by (unfold qf, facet_term, P; cbn; field).
  assert (F3 : facet_term (X 0%nat) (X 2%nat) (X 1%nat) = (qf (P 0%nat) (P 6%nat) (P 7%nat) (P 4%nat)) + (qf (P 2%nat) (P 5%nat) (P 7%nat) (P 6%nat)) + (qf (P 1%nat) (P 4%nat) (P 7%nat) (P 5%nat))) by (unfold qf, facet_term, P; cbn; field).
  rewrite V0, V1, V2, V3. clear V0 V1 V2 V3. clearbody P. lra.
Qed.

(** The sub control volumes of every wedge sum to the volume its faces enclose. *)
Theorem C31_wed6_volumes_fill : forall X,
  rsum (map (wed_scv_volume X) (seq 0 6)) = enclosed_volume wed_faces X.
Proof.
  intros X. cbn [seq map rsum fold_right].
  unfold enclosed_volume. cbn [wed_faces map face_flux rsum fold_right].
  rewrite ?patch_flux_qf, ?facet_triangle.
  pose (P := wed_points X).
  assert (V0 : wed_scv_volume X 0 = (qf (P 0%nat) (P 6%nat) (P 16%nat) (P 15%nat) + qf (P 8%nat) (P 19%nat) (P 20%nat) (P 9%nat) + qf (P 0%nat) (P 15%nat) (P 19%nat) (P 8%nat) + qf (P 16%nat) (P 6%nat) (P 9%nat) (P 20%nat) + qf (P 15%nat) (P 16%nat) (P 20%nat) (P 19%nat) + qf (P 0%nat) (P 8%nat) (P 9%nat) (P 6%nat)) / 18) by (unfold wed_scv_volume; cbn [Nat.ltb Nat.leb]; rewrite grandy_faces; reflexivity).
  assert (V1 : wed_scv_volume X 1 = (qf (P 9%nat) (P 7%nat) (P 1%nat) (P 6%nat) + qf (P 20%nat) (P 16%nat) (P 14%nat) (P 18%nat) + qf (P 9%nat) (P 6%nat) (P 16%nat) (P 20%nat) + qf (P 1%nat) (P 7%nat) (P 18%nat) (P 14%nat) + qf (P 6%nat) (P 1%nat) (P 14%nat) (P 16%nat) + qf (P 9%nat) (P 20%nat) (P 18%nat) (P 7%nat)) / 18) by (unfold wed_scv_volume; cbn [Nat.ltb Nat.leb]; rewrite grandy_faces; reflexivity).
  assert (V2 : wed_scv_volume X 2 = (qf (P 8%nat) (P 2%nat) (P 7%nat) (P 9%nat) + qf (P 19%nat) (P 20%nat) (P 18%nat) (P 17%nat) + qf (P 8%nat) (P 9%nat) (P 20%nat) (P 19%nat) + qf (P 7%nat) (P 2%nat) (P 17%nat) (P 18%nat) + qf (P 9%nat) (P 7%nat) (P 18%nat) (P 20%nat) + qf (P 8%nat) (P 19%nat) (P 17%nat) (P 2%nat)) / 18) by (unfold wed_scv_volume; cbn [Nat.ltb Nat.leb]; rewrite grandy_faces; reflexivity).
  assert (V3 : wed_scv_volume X 3 = (qf (P 19%nat) (P 20%nat) (P 16%nat) (P 15%nat) + qf (P 12%nat) (P 3%nat) (P 10%nat) (P 13%nat) + qf (P 19%nat) (P 15%nat) (P 3%nat) (P 12%nat) + qf (P 16%nat) (P 20%nat) (P 13%nat) (P 10%nat) + qf (P 15%nat) (P 16%nat) (P 10%nat) (P 3%nat) + qf (P 19%nat) (P 12%nat) (P 13%nat) (P 20%nat)) / 18) by (unfold wed_scv_volume; cbn [Nat.ltb Nat.leb]; rewrite grandy_faces; reflexivity).
  assert (V4 : wed_scv_volume X 4 = (qf (P 20%nat) (P 18%nat) (P 14%nat) (P 16%nat) + qf (P 13%nat) (P 10%nat) (P 4%nat) (P 11%nat) + qf (P 20%nat) (P 16%nat) (P 10%nat) (P 13%nat) + qf (P 14%nat) (P 18%nat) (P 11%nat) (P 4%nat) + qf (P 16%nat) (P 14%nat) (P 4%nat) (P 10%nat) + qf (P 20%nat) (P 13%nat) (P 11%nat) (P 18%nat)) / 18) by (unfold wed_scv_volume; cbn [Nat.ltb Nat.leb]; rewrite grandy_faces; reflexivity).
  assert (V5 : wed_scv_volume X 5 = (qf (P 19%nat) (P 17%nat) (P 18%nat) (P 20%nat) + qf (P 12%nat) (P 13%nat) (P 11%nat) (P 5%nat) + qf (P 19%nat) (P 20%nat) (P 13%nat) (P 12%nat) + qf (P 18%nat) (P 17%nat) (P 5%nat) (P 11%nat) + qf (P 20%nat) (P 18%nat) (P 11%nat) (P 13%nat) + qf (P 19%nat) (P 12%nat) (P 5%nat) (P 17%nat)) / 18) by (unfold wed_scv_volume; cbn [Nat.ltb Nat.leb]; rewrite grandy_faces; reflexivity).
  assert (E0 : qf (P 9%nat) (P 6%nat) (P 16%nat) (P 20%nat) = - (qf (P 16%nat) (P 6%nat) (P 9%nat) (P 20%nat))) by qcan.
  assert (E1 : qf (P 8%nat) (P 9%nat) (P 20%nat) (P 19%nat) = - (qf (P 8%nat) (P 19%nat) (P 20%nat) (P 9%nat))) by qcan.
  assert (E2 : qf (P 9%nat) (P 7%nat) (P 18%nat) (P 20%nat) = - (qf (P 9%nat) (P 20%nat) (P 18%nat) (P 7%nat))) by qcan.
  assert (E3 : qf (P 19%nat) (P 20%nat) (P 16%nat) (P 15%nat) = - (qf (P 15%nat) (P 16%nat) (P 20%nat) (P 19%nat))) by qcan.
  assert (E4 : qf (P 20%nat) (P 18%nat) (P 14%nat) (P 16%nat) = - (qf (P 20%nat) (P 16%nat) (P 14%nat) (P 18%nat))) by qcan.
  assert (E5 : qf (P 20%nat) (P 16%nat) (P 10%nat) (P 13%nat) = - (qf (P 16%nat) (P 20%nat) (P 13%nat) (P 10%nat))) by qcan.
  assert (E6 : qf (P 19%nat) (P 17%nat) (P 18%nat) (P 20%nat) = - (qf (P 19%nat) (P 20%nat) (P 18%nat) (P 17%nat))) by qcan.
  assert (E7 : qf (P 19%nat) (P 20%nat) (P 13%nat) (P 12%nat) = - (qf (P 19%nat) (P 12%nat) (P 13%nat) (P 20%nat))) by qcan.
  assert (E8 : qf (P 20%nat) (P 18%nat) (P 11%nat) (P 13%nat) = - (qf (P 20%nat) (P 13%nat) (P 11%nat) (P 18%nat))) by qcan.
  assert (F0 : qf (X 0%nat) (X 1%nat) (X 4%nat) (X 3%nat) = (qf (P 0%nat) (P 6%nat) (P 16%nat) (P 15%nat)) + (qf (P 6%nat) (P 1%nat) (P 14%nat) (P 16%nat)) + (qf (P 16%nat) (P 14%nat) (P 4%nat) (P 10%nat)) + (qf (P 15%nat) (P 16%nat) (P 10%nat) (P 3%nat))) by (unfold qf, facet_term, P; cbn; field).
  assert (F1 : qf (X 1%nat) (X 2%nat) (X 5%nat) (X 4%nat) = (qf (P 1%nat) (P 7%nat) (P 18%nat) (P 14%nat)) + (qf (P 7%nat) (P 2%nat) (P 17%nat) (P 18%nat)) + (qf (P 18%nat) (P 17%nat) (P 5%nat) (P 11%nat)) + (qf (P 14%nat) (P 18%nat) (P 11%nat) (P 4%nat))) by (unfold qf, facet_term, P; cbn; field).
  assert (F2 : qf (X 0%nat) (X 3%nat) (X 5%nat) (X 2%nat) = (qf (P 0%nat) (P 15%nat) (P 19%nat) (P 8%nat)) + (qf (P 19%nat) (P 15%nat) (P 3%nat) (P 12%nat)) + (qf (P 19%nat) (P 12%nat) (P 5%nat) (P 17%nat)) + (qf (P 8%nat) (P 19%nat) (P 17%nat) (P 2%nat))) by (unfold qf, facet_term, P; cbn; field).
  assert (F3 : facet_term (X 0%nat) (X 2%nat) (X 1%nat) = (qf (P 0%nat) (P 8%nat) (P 9%nat) (P 6%nat)) + (qf (P 8%nat) (P 2%nat) (P 7%nat) (P 9%nat)) + (qf (P 9%nat) (P 7%nat) (P 1%nat) (P 6%nat))) by (unfold qf, facet_term, P; cbn; field).
  assert (F4 : facet_term (X 3%nat) (X 4%nat) (X 5%nat) = (qf (P 12%nat) (P 3%nat) (P 10%nat) (P 13%nat)) + (qf (P 13%nat) (P 10%nat) (P 4%nat) (P 11%nat)) + (qf (P 12%nat) (P 13%nat) (P 11%nat) (P 5%nat))) by (unfold qf, facet_term, P; cbn; field).
  rewrite V0, V1, V2, V3, V4, V5. clear V0 V1 V2 V3 V4 V5. clearbody P. lra.
Qed.

(** The sub control volumes of every pyramid sum to the volume its faces enclose. *)
Theorem C31_pyr5_volumes_fill : forall X,
  rsum (map (pyr_scv_volume X) (seq 0 5)) = enclosed_volume pyr_faces X.
Proof.
  intros X. cbn [seq map rsum fold_right].
  unfold enclosed_volume. cbn [pyr_faces map face_flux rsum fold_right].
  rewrite ?patch_flux_qf, ?facet_triangle.
  pose (P := pyr_points X).
  assert (V0 : pyr_scv_volume X 0 = (bf (P 11%nat) (P 12%nat) (P 18%nat) (P 17%nat) + qf (P 0%nat) (P 8%nat) (P 9%nat) (P 5%nat) + qf (P 0%nat) (P 5%nat) (P 12%nat) (P 11%nat) + qf (P 9%nat) (P 8%nat) (P 17%nat) (P 18%nat) + qf (P 5%nat) (P 9%nat) (P 18%nat) (P 12%nat) + qf (P 0%nat) (P 11%nat) (P 17%nat) (P 8%nat)) / 18) by (unfold pyr_scv_volume; cbn [Nat.ltb Nat.leb]; rewrite bent_faces; reflexivity).
  assert (V1 : pyr_scv_volume X 1 = (bf (P 10%nat) (P 14%nat) (P 18%nat) (P 12%nat) + qf (P 1%nat) (P 5%nat) (P 9%nat) (P 6%nat) + qf (P 1%nat) (P 6%nat) (P 14%nat) (P 10%nat) + qf (P 9%nat) (P 5%nat) (P 12%nat) (P 18%nat) + qf (P 6%nat) (P 9%nat) (P 18%nat) (P 14%nat) + qf (P 1%nat) (P 10%nat) (P 12%nat) (P 5%nat)) / 18) by (unfold pyr_scv_volume; cbn [Nat.ltb Nat.leb]; rewrite bent_faces; reflexivity).
  assert (V2 : pyr_scv_volume X 2 = (bf (P 13%nat) (P 16%nat) (P 18%nat) (P 14%nat) + qf (P 2%nat) (P 6%nat) (P 9%nat) (P 7%nat) + qf (P 2%nat) (P 7%nat) (P 16%nat) (P 13%nat) + qf (P 9%nat) (P 6%nat) (P 14%nat) (P 18%nat) + qf (P 7%nat) (P 9%nat) (P 18%nat) (P 16%nat) + qf (P 2%nat) (P 13%nat) (P 14%nat) (P 6%nat)) / 18) by (unfold pyr_scv_volume; cbn [Nat.ltb Nat.leb]; rewrite bent_faces; reflexivity).
  assert (V3 : pyr_scv_volume X 3 = (bf (P 15%nat) (P 17%nat) (P 18%nat) (P 16%nat) + qf (P 3%nat) (P 7%nat) (P 9%nat) (P 8%nat) + qf (P 3%nat) (P 8%nat) (P 17%nat) (P 15%nat) + qf (P 9%nat) (P 7%nat) (P 16%nat) (P 18%nat) + qf (P 8%nat) (P 9%nat) (P 18%nat) (P 17%nat) + qf (P 3%nat) (P 15%nat) (P 16%nat) (P 7%nat)) / 18) by (unfold pyr_scv_volume; cbn [Nat.ltb Nat.leb]; rewrite bent_faces; reflexivity).
  assert (V4 : pyr_scv_volume X 4 = (bf (P 18%nat) (P 17%nat) (P 15%nat) (P 16%nat) + bf (P 18%nat) (P 12%nat) (P 11%nat) (P 17%nat) + bf (P 18%nat) (P 14%nat) (P 10%nat) (P 12%nat) + bf (P 18%nat) (P 16%nat) (P 13%nat) (P 14%nat) + facet_term (P 11%nat) (P 12%nat) (P 4%nat) + facet_term (P 12%nat) (P 10%nat) (P 4%nat) + facet_term (P 10%nat) (P 14%nat) (P 4%nat) + facet_term (P 14%nat) (P 13%nat) (P 4%nat) + facet_term (P 4%nat) (P 13%nat) (P 16%nat) + facet_term (P 4%nat) (P 16%nat) (P 15%nat) + facet_term (P 4%nat) (P 15%nat) (P 17%nat) + facet_term (P 4%nat) (P 17%nat) (P 11%nat)) / 18) by (unfold pyr_scv_volume; cbn [Nat.ltb Nat.leb]; rewrite octo_faces; reflexivity).
  assert (E0 : qf (P 9%nat) (P 5%nat) (P 12%nat) (P 18%nat) = - (qf (P 5%nat) (P 9%nat) (P 18%nat) (P 12%nat))) by qcan.
  assert (E1 : qf (P 9%nat) (P 6%nat) (P 14%nat) (P 18%nat) = - (qf (P 6%nat) (P 9%nat) (P 18%nat) (P 14%nat))) by qcan.
  assert (E2 : qf (P 9%nat) (P 7%nat) (P 16%nat) (P 18%nat) = - (qf (P 7%nat) (P 9%nat) (P 18%nat) (P 16%nat))) by qcan.
  assert (E3 : qf (P 8%nat) (P 9%nat) (P 18%nat) (P 17%nat) = - (qf (P 9%nat) (P 8%nat) (P 17%nat) (P 18%nat))) by qcan.
  assert (F0 : facet_term (X 0%nat) (X 1%nat) (X 4%nat) = (qf (P 0%nat) (P 5%nat) (P 12%nat) (P 11%nat)) + (qf (P 1%nat) (P 10%nat) (P 12%nat) (P 5%nat)) + facet_term (P 11%nat) (P 12%nat) (P 4%nat) + facet_term (P 12%nat) (P 10%nat) (P 4%nat)) by (unfold qf, facet_term, P; cbn; field).
  assert (F1 : facet_term (X 1%nat) (X 2%nat) (X 4%nat) = (qf (P 1%nat) (P 6%nat) (P 14%nat) (P 10%nat)) + (qf (P 2%nat) (P 13%nat) (P 14%nat) (P 6%nat)) + facet_term (P 10%nat) (P 14%nat) (P 4%nat) + facet_term (P 14%nat) (P 13%nat) (P 4%nat)) by (unfold qf, facet_term, P; cbn; field).
  assert (F2 : facet_term (X 2%nat) (X 3%nat) (X 4%nat) = (qf (P 2%nat) (P 7%nat) (P 16%nat) (P 13%nat)) + (qf (P 3%nat) (P 15%nat) (P 16%nat) (P 7%nat)) + facet_term (P 4%nat) (P 13%nat) (P 16%nat) + facet_term (P 4%nat) (P 16%nat) (P 15%nat)) by (unfold qf, facet_term, P; cbn; field).
  assert (F3 : facet_term (X 0%nat) (X 4%nat) (X 3%nat) = (qf (P 0%nat) (P 11%nat) (P 17%nat) (P 8%nat)) + facet_term (P 4%nat) (P 15%nat) (P 17%nat) + facet_term (P 4%nat) (P 17%nat) (P 11%nat) + (qf (P 3%nat) (P 8%nat) (P 17%nat) (P 15%nat))) by (unfold qf, facet_term, P; cbn; field).
  assert (F4 : qf (X 0%nat) (X 3%nat) (X 2%nat) (X 1%nat) = (qf (P 0%nat) (P 8%nat) (P 9%nat) (P 5%nat)) + (qf (P 3%nat) (P 7%nat) (P 9%nat) (P 8%nat)) + (qf (P 2%nat) (P 6%nat) (P 9%nat) (P 7%nat)) + (qf (P 1%nat) (P 5%nat) (P 9%nat) (P 6%nat))) by (unfold qf, facet_term, P; cbn; field).
  assert (E4 : facet_term (P 18%nat) (P 17%nat) (P 16%nat) = - (facet_term (P 17%nat) (P 18%nat) (P 16%nat))) by (unfold facet_term; ring).
  assert (E5 : facet_term (P 17%nat) (P 15%nat) (P 16%nat) = - (facet_term (P 15%nat) (P 17%nat) (P 16%nat))) by (unfold facet_term; ring).
  assert (E6 : facet_term (P 18%nat) (P 12%nat) (P 17%nat) = - (facet_term (P 12%nat) (P 18%nat) (P 17%nat))) by (unfold facet_term; ring).
  assert (E7 : facet_term (P 12%nat) (P 11%nat) (P 17%nat) = - (facet_term (P 11%nat) (P 12%nat) (P 17%nat))) by (unfold facet_term; ring).
  assert (E8 : facet_term (P 18%nat) (P 14%nat) (P 12%nat) = - (facet_term (P 14%nat) (P 18%nat) (P 12%nat))) by (unfold facet_term; ring).
  assert (E9 : facet_term (P 14%nat) (P 10%nat) (P 12%nat) = - (facet_term (P 10%nat) (P 14%nat) (P 12%nat))) by (unfold facet_term; ring).
  assert (E10 : facet_term (P 18%nat) (P 16%nat) (P 14%nat) = - (facet_term (P 16%nat) (P 18%nat) (P 14%nat))) by (unfold facet_term; ring).
  assert (E11 : facet_term (P 16%nat) (P 13%nat) (P 14%nat) = - (facet_term (P 13%nat) (P 16%nat) (P 14%nat))) by (unfold facet_term; ring).
  rewrite V0, V1, V2, V3, V4. clear V0 V1 V2 V3 V4. clearbody P. rewrite !bf_triangles. lra.
Qed.
