(** C91 continued: the projected-nodal-gradient system and its solution. *)
Require Import Reals List Bool Lra Lia Arith Permutation.
From Verif Require Import RUtil Edge_Model Edge_Proofs Elem_Model Elem_Spec Elem_Proofs Elem_Props2 Rad_Quad_Proofs3 Sum_Proofs.
From Verif Require Geom_Props Geom_Props2 Geom_Model Grad_Props2 Tab_LU_Props.
From Verif Require Import Vof_Model Vof_Model2 Vof_Spec Vof_Props6 Grad_Model Grad_Spec Grad_Props Grad_Props3.
Import ListNotations.
Open Scope R_scope.

Lemma addB_at i v s a : eB (addB i v s) a = eB s a + dl a i * v.
Proof. unfold addB, dl; cbn [eB]. destruct (Nat.eqb a i); ring. Qed.
Lemma addL_at i j v s a b : eL_ (addL i j v s) a b = eL_ s a b + dl a i * dl b j * v.
Proof. unfold addL, dl; cbn [eL_]. destruct (Nat.eqb a i), (Nat.eqb b j); cbn [andb]; ring. Qed.
Lemma addL_B i j v s a : eB (addL i j v s) a = eB s a.
Proof. reflexivity. Qed.
Lemma addB_L i v s a b : eL_ (addB i v s) a b = eL_ s a b.
Proof. reflexivity. Qed.
Lemma loop_same {S} n (body : nat -> S -> S) (get : S -> R) s : (forall k s, get (body k s) = get s) -> get (loop n body s) = get s.
Proof. intros H. induction n as [|n IH]; [reflexivity|]. rewrite loop_S, H. exact IH. Qed.
Lemma comps_gain d (get : esys -> R) (body : nat -> esys -> esys) (w : nat -> R) i s : (i < d)%nat ->
  (forall k s, (k < d)%nat -> get (body k s) = get s + dl k i * w k) -> get (loop d body s) = get s + w i.
Proof. intros Hi H. rewrite (loop_gain d body get (fun k => dl k i * w k) s H). rewrite sumn_dl by exact Hi. reflexivity. Qed.

Lemma png_elem_B m q G s n i : (i < ndim m)%nat ->
  eB (png_elem m q G s) (n*ndim m+i)%nat = eB s (n*ndim m+i)%nat
   + sumn (nscs m) (fun ip => (dl n (lrL m ip) - dl n (lrR m ip)) * (sumn (npe m) (fun ic => Ns m ip ic * q ic) * area m ip i))
   - sumn (nscv m) (fun ip => dl n (nearest m ip) * (vol m ip * sumn (npe m) (fun ic => Nv m ip ic * G (ic*ndim m+i)%nat))).
Proof.
  intros Hi. unfold png_elem. cbv zeta. set (d := ndim m) in *.
  rewrite (loop_gain (nscv m) _ (fun s => eB s (n*d+i)%nat) (fun ip => - (dl n (nearest m ip) * (vol m ip * sumn (npe m) (fun ic => Nv m ip ic * G (ic*d+i)%nat))))).
  - rewrite (loop_gain (nscs m) _ (fun s => eB s (n*d+i)%nat) (fun ip => (dl n (lrL m ip) - dl n (lrR m ip)) * (sumn (npe m) (fun ic => Ns m ip ic * q ic) * area m ip i))).
    + rewrite sumn_opp. ring.
    + intros ip s1 _. apply (comps_gain d (fun s => eB s (n*d+i)%nat) _ (fun i => (dl n (lrL m ip) - dl n (lrR m ip)) * (sumn (npe m) (fun ic => Ns m ip ic * q ic) * area m ip i)) i s1 Hi).
      intros k s2 Hk. rewrite !addB_at, !flat_dl by assumption. rewrite (dl_sym k i). ring.
  - intros ip s1 _. rewrite (loop_same (npe m) _ (fun s => eB s (n*d+i)%nat)).
    + apply (comps_gain d (fun s => eB s (n*d+i)%nat) _ (fun i => - (dl n (nearest m ip) * (vol m ip * sumn (npe m) (fun ic => Nv m ip ic * G (ic*d+i)%nat)))) i s1 Hi).
      intros k s2 Hk. rewrite addB_at, flat_dl by assumption. rewrite (dl_sym k i). ring.
    + intros ic s2. apply (loop_same d _ (fun s => eB s (n*d+i)%nat)). reflexivity.
Qed.
Lemma png_elem_L m q G s n i c k : (i < ndim m)%nat -> (k < ndim m)%nat -> (c < npe m)%nat ->
  eL_ (png_elem m q G s) (n*ndim m+i)%nat (c*ndim m+k)%nat = eL_ s (n*ndim m+i)%nat (c*ndim m+k)%nat
   + dl i k * sumn (nscv m) (fun ip => dl n (nearest m ip) * (vol m ip * Nv m ip c)).
Proof.
  intros Hi Hk Hc. unfold png_elem. cbv zeta. set (d := ndim m) in *.
  rewrite (loop_gain (nscv m) _ (fun s => eL_ s (n*d+i)%nat (c*d+k)%nat) (fun ip => dl i k * (dl n (nearest m ip) * (vol m ip * Nv m ip c)))).
  - rewrite sumn_scal. f_equal. apply (loop_same (nscs m) _ (fun s => eL_ s (n*d+i)%nat (c*d+k)%nat)). intros ip s1.
    apply (loop_same d _ (fun s => eL_ s (n*d+i)%nat (c*d+k)%nat)). reflexivity.
  - intros ip s1 _.
    rewrite (loop_gain (npe m) _ (fun s => eL_ s (n*d+i)%nat (c*d+k)%nat) (fun ic => dl ic c * (dl i k * (dl n (nearest m ip) * (vol m ip * Nv m ip ic))))).
    + rewrite sumn_dl by exact Hc. f_equal. apply (loop_same d _ (fun s => eL_ s (n*d+i)%nat (c*d+k)%nat)). reflexivity.
    + intros ic s2 _. rewrite (comps_gain d (fun s => eL_ s (n*d+i)%nat (c*d+k)%nat) _ (fun i' => dl ic c * (dl i' k * (dl n (nearest m ip) * (vol m ip * Nv m ip ic)))) i s2 Hi); [reflexivity|].
      intros k' s3 Hk'. rewrite addL_at, !flat_dl by assumption. rewrite (dl_sym i k'), (dl_sym c ic), (dl_sym k k'). ring.
Qed.
Lemma png_elem_B' d m q G s n i : ndim m = d -> (i < d)%nat ->
  eB (png_elem m q G s) (n*d+i)%nat = eB s (n*d+i)%nat
   + sumn (nscs m) (fun ip => (dl n (lrL m ip) - dl n (lrR m ip)) * (sumn (npe m) (fun ic => Ns m ip ic * q ic) * area m ip i))
   - sumn (nscv m) (fun ip => dl n (nearest m ip) * (vol m ip * sumn (npe m) (fun ic => Nv m ip ic * G (ic*d+i)%nat))).
Proof. intros <-. apply png_elem_B. Qed.
Lemma png_elem_L' d m q G s n i c k : ndim m = d -> (i < d)%nat -> (k < d)%nat -> (c < npe m)%nat ->
  eL_ (png_elem m q G s) (n*d+i)%nat (c*d+k)%nat = eL_ s (n*d+i)%nat (c*d+k)%nat
   + dl i k * sumn (nscv m) (fun ip => dl n (nearest m ip) * (vol m ip * Nv m ip c)).
Proof. intros <-. apply png_elem_L. Qed.
Lemma png_face_B d f dynP q s n i : (i < d)%nat ->
  eB (png_face d f dynP q s) (n*d+i)%nat = eB s (n*d+i)%nat + sumn (gf_nip f) (fun ip => dl n (gf_near f ip) * ((sumn (gf_npf f) (fun ic => gf_N f ip ic * q ic) - dynP ip) * gf_A f ip i)).
Proof.
  intros Hi. unfold png_face. cbv zeta.
  apply (loop_gain (gf_nip f) _ (fun s => eB s (n*d+i)%nat) (fun ip => dl n (gf_near f ip) * ((sumn (gf_npf f) (fun ic => gf_N f ip ic * q ic) - dynP ip) * gf_A f ip i))).
  intros ip s1 _. rewrite fold_from.
  apply (comps_gain d (fun s => eB s (n*d+i)%nat) _ (fun i => dl n (gf_near f ip) * ((sumn (gf_npf f) (fun ic => gf_N f ip ic * q ic) - dynP ip) * gf_A f ip i)) i s1 Hi).
  intros k s2 Hk. rewrite addB_at, flat_dl by assumption. rewrite (dl_sym k i). ring.
Qed.
Lemma png_face_L d f dynP q s r c : eL_ (png_face d f dynP q s) r c = eL_ s r c.
Proof. unfold png_face. cbv zeta. apply (loop_same (gf_nip f) _ (fun s => eL_ s r c)). intros ip s1. apply (loop_same d _ (fun s => eL_ s r c)). reflexivity. Qed.

Lemma divmod_flat d l k : (k < d)%nat -> ((l*d+k)/d = l /\ (l*d+k) mod d = k)%nat.
Proof.
  intros H. assert (d <> 0)%nat by lia. split.
  - rewrite Nat.div_add_l by assumption. rewrite Nat.div_small by exact H. lia.
  - rewrite Nat.add_comm, Nat.mod_add by assumption. apply Nat.mod_small, H.
Qed.
Lemma at_dl a n : at_node a n = dl a n.
Proof. reflexivity. Qed.
Lemma scatter_B n d node loc S a i : (i < d)%nat ->
  eB (scatter n d node loc S) (a*d+i)%nat = eB S (a*d+i)%nat + sumn n (fun l => at_node a (node l) * eB loc (l*d+i)%nat).
Proof.
  intros Hi. unfold scatter. cbv zeta.
  rewrite (loop_gain (n*d) _ (fun s => eB s (a*d+i)%nat) (fun r => dl (a*d+i)%nat (node (r/d) * d + r mod d)%nat * eB loc r)).
  - f_equal. rewrite sumn_flat. apply sumn_ext. intros l _.
    rewrite (sumn_ext d _ (fun k => dl k i * (at_node a (node l) * eB loc (l*d+k)%nat))); [apply sumn_dl; exact Hi|].
    intros k Hk. destruct (divmod_flat d l k Hk) as [-> ->]. rewrite flat_dl by assumption. rewrite (dl_sym i k). unfold at_node, dl. ring.
  - intros r s1 _. rewrite (loop_same (n*d) _ (fun s => eB s (a*d+i)%nat)) by reflexivity. apply addB_at.
Qed.
Lemma scatter_L n d node loc S a i b k : (i < d)%nat -> (k < d)%nat ->
  eL_ (scatter n d node loc S) (a*d+i)%nat (b*d+k)%nat = eL_ S (a*d+i)%nat (b*d+k)%nat
   + sumn n (fun l => at_node a (node l) * sumn n (fun c => at_node b (node c) * eL_ loc (l*d+i)%nat (c*d+k)%nat)).
Proof.
  intros Hi Hk. unfold scatter. cbv zeta.
  rewrite (loop_gain (n*d) _ (fun s => eL_ s (a*d+i)%nat (b*d+k)%nat) (fun r => dl (a*d+i)%nat (node (r/d) * d + r mod d)%nat * sumn (n*d) (fun c => dl (b*d+k)%nat (node (c/d) * d + c mod d)%nat * eL_ loc r c))).
  - f_equal. rewrite sumn_flat. apply sumn_ext. intros l _.
    rewrite (sumn_ext d _ (fun k' => dl k' i * (at_node a (node l) * sumn n (fun c => at_node b (node c) * eL_ loc (l*d+k')%nat (c*d+k)%nat)))); [apply sumn_dl; exact Hi|].
    intros k' Hk'. destruct (divmod_flat d l k' Hk') as [-> ->]. rewrite flat_dl by assumption. rewrite (dl_sym i k').
    replace (sumn (n*d) _) with (sumn n (fun c => at_node b (node c) * eL_ loc (l*d+k')%nat (c*d+k)%nat)); [unfold at_node, dl; ring|].
    symmetry. rewrite sumn_flat. apply sumn_ext. intros c _.
    rewrite (sumn_ext d _ (fun k2 => dl k2 k * (at_node b (node c) * eL_ loc (l*d+k')%nat (c*d+k2)%nat))); [apply sumn_dl; exact Hk|].
    intros k2 Hk2. destruct (divmod_flat d c k2 Hk2) as [-> ->]. rewrite flat_dl by assumption. rewrite (dl_sym k k2). unfold at_node, dl. ring.
  - intros r s1 _.
    rewrite (loop_gain (n*d) _ (fun s => eL_ s (a*d+i)%nat (b*d+k)%nat) (fun c => dl (a*d+i)%nat (node (r/d) * d + r mod d)%nat * (dl (b*d+k)%nat (node (c/d) * d + c mod d)%nat * eL_ loc r c))).
    + rewrite sumn_scal. reflexivity.
    + intros c s2 _. rewrite addL_at. ring.
Qed.

(** the mesh data fit together *)
Definition png_mesh (d NN : nat) (es : list velem) (fs : list gface) : Prop :=
  (forall e, In e es -> ndim (ve_me e) = d /\ maps_ok (ve_me e) /\ forall ic, (ic < npe (ve_me e))%nat -> (ve_node e ic < NN)%nat) /\
  (forall f, In f fs -> forall ip, (ip < gf_nip f)%nat -> (gf_near f ip < gf_npf f)%nat).
(** component i of a flat nodal vector field at a sub-control-volume point *)
Definition at_scvp (d : nat) (G : nat -> R) (i : nat) (e : velem) (ip : nat) : R :=
  sumn (npe (ve_me e)) (fun ic => Nv (ve_me e) ip ic * G (ve_node e ic * d + i)%nat).
Lemma sum_at (n : nat) (node : nat -> nat) a k (w : R) : (k < n)%nat -> sumn n (fun l => at_node a (node l) * (dl l k * w)) = at_node a (node k) * w.
Proof. intros Hk. rewrite (sumn_ext n _ (fun l => dl l k * (at_node a (node l) * w))) by (intros; ring). apply (sumn_dl n k (fun l => at_node a (node l) * w) Hk). Qed.
(** ** C91: the residual of the projected-gradient system at node a, component i: outward surface integral of q minus the
    volume integral of the current gradient; the matrix is the mass matrix and does not mix components *)
Theorem C91_png_residual : forall d NN q qb dynP es fs G a i, png_mesh d NN es fs -> (i < d)%nat ->
  eB (png_system d q qb dynP es fs G) (a*d+i)%nat
  = inner_surface es (at_ip q) a i + outer_surface fs (fun f ip => at_bip qb f ip - dynP f ip) a i - scv_total es (at_scvp d G i) a.
Proof.
  intros d NN q qb dynP es fs G a i [ME MF] Hi. unfold png_system.
  assert (EL : forall l S0, (forall e, In e l -> In e es) -> eB (fold_left (fun S e => scatter (npe (ve_me e)) d (ve_node e)
      (png_elem (ve_me e) (fun ic => q (ve_node e ic)) (fun r => G (ve_node e (r / d) * d + r mod d)%nat) zero_esys) S) l S0) (a*d+i)%nat
      = eB S0 (a*d+i)%nat + (inner_surface l (at_ip q) a i - scv_total l (at_scvp d G i) a)).
  { induction l as [|e l IH]; intros S0 Hl; cbn [fold_left]; [unfold inner_surface, scv_total, lsum; cbn; ring|].
    rewrite IH by (intros; apply Hl; right; assumption). rewrite scatter_B by exact Hi. unfold inner_surface, scv_total. rewrite !lsum_cons. cbv zeta.
    destruct (ME e (Hl e (or_introl eq_refl))) as (Hd & [M1 M2] & _).
    rewrite (sumn_ext (npe (ve_me e)) _ (fun n => at_node a (ve_node e n) * (sumn (nscs (ve_me e)) (fun ip => (dl n (lrL (ve_me e) ip) - dl n (lrR (ve_me e) ip)) * (at_ip q e ip * area (ve_me e) ip i))
       - sumn (nscv (ve_me e)) (fun ip => dl n (nearest (ve_me e) ip) * (vol (ve_me e) ip * at_scvp d G i e ip))))).
    2:{ intros n _. f_equal. rewrite (png_elem_B' d) by assumption. cbn [zero_esys eB]. rewrite Rplus_0_l. f_equal.
        apply sumn_ext. intros ip _. f_equal. f_equal. unfold at_scvp. apply sumn_ext. intros ic _. f_equal.
        destruct (divmod_flat d ic i Hi) as [-> ->]. reflexivity. }
    rewrite (sumn_ext (npe (ve_me e)) _ (fun n => sumn (nscs (ve_me e)) (fun ip => at_node a (ve_node e n) * ((dl n (lrL (ve_me e) ip) - dl n (lrR (ve_me e) ip)) * (at_ip q e ip * area (ve_me e) ip i)))
       - sumn (nscv (ve_me e)) (fun ip => at_node a (ve_node e n) * (dl n (nearest (ve_me e) ip) * (vol (ve_me e) ip * at_scvp d G i e ip))))) by (intros; rewrite !sumn_scal; ring).
    rewrite sumn_minus. rewrite (sumn_swap (npe (ve_me e)) (nscs (ve_me e))), (sumn_swap (npe (ve_me e)) (nscv (ve_me e))).
    rewrite (sumn_ext (nscs (ve_me e)) _ (fun ip => (at_node a (ve_node e (lrL (ve_me e) ip)) - at_node a (ve_node e (lrR (ve_me e) ip))) * (at_ip q e ip * area (ve_me e) ip i))).
    2:{ intros ip Hip. destruct (M1 ip Hip) as [H1 H2].
        rewrite (sumn_ext (npe (ve_me e)) _ (fun n => at_node a (ve_node e n) * (dl n (lrL (ve_me e) ip) * (at_ip q e ip * area (ve_me e) ip i)) - at_node a (ve_node e n) * (dl n (lrR (ve_me e) ip) * (at_ip q e ip * area (ve_me e) ip i)))) by (intros; ring).
        rewrite sumn_minus, !sum_at by assumption. ring. }
    rewrite (sumn_ext (nscv (ve_me e)) _ (fun ip => if Nat.eqb a (ve_node e (nearest (ve_me e) ip)) then vol (ve_me e) ip * at_scvp d G i e ip else 0)).
    2:{ intros ip Hip. rewrite sum_at by (apply M2; exact Hip). rewrite if_at. reflexivity. }
    ring. }
  assert (FL : forall l S0, (forall f, In f l -> In f fs) -> eB (fold_left (fun S f => scatter (gf_npf f) d (gf_node f) (png_face d f (dynP f) (fun ic => qb (gf_node f ic)) zero_esys) S) l S0) (a*d+i)%nat
      = eB S0 (a*d+i)%nat + outer_surface l (fun f ip => at_bip qb f ip - dynP f ip) a i).
  { induction l as [|f l IH]; intros S0 Hl; cbn [fold_left]; [unfold outer_surface, lsum; cbn; ring|].
    rewrite IH by (intros; apply Hl; right; assumption). rewrite scatter_B by exact Hi. unfold outer_surface. rewrite !lsum_cons.
    rewrite (sumn_ext (gf_npf f) _ (fun n => sumn (gf_nip f) (fun ip => at_node a (gf_node f n) * (dl n (gf_near f ip) * ((at_bip qb f ip - dynP f ip) * gf_A f ip i))))).
    2:{ intros n _. rewrite png_face_B by exact Hi. cbn [zero_esys eB]. rewrite Rplus_0_l, sumn_scal. reflexivity. }
    rewrite (sumn_swap (gf_npf f) (gf_nip f)).
    rewrite (sumn_ext (gf_nip f) _ (fun ip => at_node a (gf_node f (gf_near f ip)) * ((at_bip qb f ip - dynP f ip) * gf_A f ip i))).
    2:{ intros ip Hip. apply sum_at. exact (MF f (Hl f (or_introl eq_refl)) ip Hip). }
    ring. }
  rewrite FL by auto. rewrite EL by auto. cbn [zero_esys eB]. ring.
Qed.
Theorem C91_png_matrix : forall d NN q qb dynP es fs G a i b k, png_mesh d NN es fs -> (i < d)%nat -> (k < d)%nat ->
  eL_ (png_system d q qb dynP es fs G) (a*d+i)%nat (b*d+k)%nat
  = if Nat.eqb i k then scv_total es (fun e ip => sumn (npe (ve_me e)) (fun ic => at_node b (ve_node e ic) * Nv (ve_me e) ip ic)) a else 0.
Proof.
  intros d NN q qb dynP es fs G a i b k [ME MF] Hi Hk. unfold png_system.
  assert (FL : forall l S0, eL_ (fold_left (fun S f => scatter (gf_npf f) d (gf_node f) (png_face d f (dynP f) (fun ic => qb (gf_node f ic)) zero_esys) S) l S0) (a*d+i)%nat (b*d+k)%nat = eL_ S0 (a*d+i)%nat (b*d+k)%nat).
  { induction l as [|f l IH]; intros S0; cbn [fold_left]; [reflexivity|]. rewrite IH, scatter_L by assumption.
    rewrite (sumn_zero (gf_npf f)); [ring|]. intros l0 _. rewrite (sumn_zero (gf_npf f)); [ring|]. intros c _. rewrite png_face_L. cbn [zero_esys eL_]. ring. }
  rewrite FL.
  assert (EL : forall l S0, (forall e, In e l -> In e es) -> eL_ (fold_left (fun S e => scatter (npe (ve_me e)) d (ve_node e)
      (png_elem (ve_me e) (fun ic => q (ve_node e ic)) (fun r => G (ve_node e (r / d) * d + r mod d)%nat) zero_esys) S) l S0) (a*d+i)%nat (b*d+k)%nat
      = eL_ S0 (a*d+i)%nat (b*d+k)%nat + dl i k * scv_total l (fun e ip => sumn (npe (ve_me e)) (fun ic => at_node b (ve_node e ic) * Nv (ve_me e) ip ic)) a).
  { induction l as [|e l IH]; intros S0 Hl; cbn [fold_left]; [unfold scv_total, lsum; cbn; ring|].
    rewrite IH by (intros; apply Hl; right; assumption). rewrite scatter_L by assumption. unfold scv_total. rewrite !lsum_cons.
    destruct (ME e (Hl e (or_introl eq_refl))) as (Hd & [M1 M2] & _).
    rewrite (sumn_ext (npe (ve_me e)) _ (fun n => sumn (nscv (ve_me e)) (fun ip => at_node a (ve_node e n) * (dl n (nearest (ve_me e) ip) * (dl i k * (vol (ve_me e) ip * sumn (npe (ve_me e)) (fun ic => at_node b (ve_node e ic) * Nv (ve_me e) ip ic))))))).
    2:{ intros n _. rewrite sumn_scal. f_equal.
        rewrite (sumn_ext (npe (ve_me e)) _ (fun c => sumn (nscv (ve_me e)) (fun ip => dl n (nearest (ve_me e) ip) * (dl i k * (vol (ve_me e) ip * (at_node b (ve_node e c) * Nv (ve_me e) ip c)))))).
        - rewrite (sumn_swap (npe (ve_me e)) (nscv (ve_me e))). apply sumn_ext. intros ip _. rewrite !sumn_scal. reflexivity.
        - intros c Hc. rewrite (png_elem_L' d) by assumption. cbn [zero_esys eL_]. rewrite Rplus_0_l, <- !sumn_scal. apply sumn_ext. intros; ring. }
    rewrite (sumn_swap (npe (ve_me e)) (nscv (ve_me e))).
    rewrite (sumn_ext (nscv (ve_me e)) _ (fun ip => dl i k * (if Nat.eqb a (ve_node e (nearest (ve_me e) ip)) then vol (ve_me e) ip * sumn (npe (ve_me e)) (fun ic => at_node b (ve_node e ic) * Nv (ve_me e) ip ic) else 0))).
    2:{ intros ip Hip. rewrite sum_at by (apply M2; exact Hip). rewrite if_at. ring. }
    rewrite sumn_scal. ring. }
  rewrite EL by auto. cbn [zero_esys eL_]. unfold dl. destruct (Nat.eqb i k); ring.
Qed.
