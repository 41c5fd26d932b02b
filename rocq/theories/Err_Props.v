(** C93: what the error indicators measure. *)
Require Import Reals List Bool Arith Lia Lra Psatz.
From Verif Require Import Edge_Model Edge_Proofs Elem_Model Elem_Spec Elem_Proofs Elem_Props4 Err_Model.
Import ListNotations.
Open Scope R_scope.

(** *** specification *)
(** mean over the integration points of an element *)
Definition point_mean (m : me) (f : nat -> R) : R := sumn (nscs m) f / INR (nscs m).
(** difference between the two nodes next to point ip *)
Definition step (m : me) (q : nat -> R) (ip : nat) : R := q (lrR m ip) - q (lrL m ip).
(** directional difference along that edge of a nodal gradient: g(right).dx + g(left).dx *)
Definition along_edge (m : me) (x : nat -> nat -> R) (g : nat -> nat -> R) (ip : nat) : R :=
  sumn (ndim m) (fun j => step m (fun n => x n j) ip * (g (lrR m ip) j + g (lrL m ip) j)).
(** magnitude of the curl in space *)
Definition curl_mag (g : nat -> nat -> R) : R :=
  sqrt ((g 2%nat 1%nat - g 1%nat 2%nat)^2 + (g 0%nat 2%nat - g 2%nat 0%nat)^2 + (g 1%nat 0%nat - g 0%nat 1%nat)^2).
(** nodal field q is linear with gradient g at the element's nodes *)
Definition lin_at (m : me) (x : nat -> nat -> R) (q : nat -> R) (g : nat -> R) : Prop :=
  exists c, forall n, (n < npe m)%nat -> q n = c + sumn (ndim m) (fun j => g j * x n j).

Lemma gather_at npe nu d du oob n i j : (n < npe)%nat -> (i < nu)%nat -> (j < d)%nat ->
  gather npe nu d du oob (n*nu*d + i*d + j)%nat = du n i j.
Proof.
  intros Hn Hi Hj. unfold gather.
  assert (E : (n*nu*d + i*d + j = (n*nu + i)*d + j)%nat) by ring. rewrite E.
  assert (B : ((n*nu + i)*d + j < npe*(nu*d))%nat).
  { assert (n*nu + i + 1 <= npe*nu)%nat by nia. nia. }
  apply Nat.ltb_lt in B. rewrite B.
  assert (D1 : (((n*nu + i)*d + j) / d = n*nu + i)%nat) by (rewrite Nat.div_add_l by lia; rewrite Nat.div_small by lia; lia).
  assert (M1 : (((n*nu + i)*d + j) mod d = j)%nat) by (rewrite Nat.add_comm, Nat.mod_add by lia; apply Nat.mod_small; lia).
  assert (D2 : (((n*nu + i)*d + j) / (nu*d) = n)%nat).
  { rewrite Nat.mul_comm with (n := nu), <- Nat.div_div by lia. rewrite D1, Nat.div_add_l by lia. rewrite (Nat.div_small i) by lia. lia. }
  rewrite D1, D2, M1. rewrite Nat.add_comm, Nat.mod_add by lia. rewrite Nat.mod_small by lia. reflexivity.
Qed.

Lemma fold_pts {f : R -> nat -> R} {g : nat -> R} n : (forall e ip, (ip < n)%nat -> f e ip = e + g ip) -> forall e0, fold_left f (seq 0 n) e0 = e0 + sumn n g.
Proof.
  intros H e0. induction n as [|n IH]. { cbn. ring. }
  rewrite seq_S, fold_left_app, IH by (intros; apply H; lia). cbn [fold_left]. rewrite H by lia. rewrite sumn_S. rewrite Nat.add_0_l. ring.
Qed.

Lemma simple_dudx2_comps m x du oob ip e : maps_ok m -> (ip < nscs m)%nat ->
  simple_point Dudx2 m x (gather (npe m) (ndim m) (ndim m) du oob) ip e
  = e + sumn (ndim m) (fun i => (along_edge m x (fun n j => du n i j) ip)^2).
Proof.
  intros [MO _] Hip. destruct (MO ip Hip) as [HL HR]. unfold simple_point, simple_comps. set (d := ndim m) in *.
  assert (G : forall k st, (k <= d)%nat ->
     fst (fold_left (fun (st : R * R) (i : nat) => (fst st
        + sumn d (fun j => (x (lrR m ip) j - x (lrL m ip) j) * (gather (npe m) d d du oob (lrR m ip * d * d + i * d + j)%nat + gather (npe m) d d du oob (lrL m ip * d * d + i * d + j)%nat))
        * sumn d (fun j => (x (lrR m ip) j - x (lrL m ip) j) * (gather (npe m) d d du oob (lrR m ip * d * d + i * d + j)%nat + gather (npe m) d d du oob (lrL m ip * d * d + i * d + j)%nat)),
        sqrt (snd st + (x (lrR m ip) i - x (lrL m ip) i) * (x (lrR m ip) i - x (lrL m ip) i)))) (seq 0 k) st)
     = fst st + sumn k (fun i => (along_edge m x (fun n j => du n i j) ip)^2)).
  { induction k as [|k IH]; intros st Hk. { cbn. ring. }
    rewrite seq_S, fold_left_app. cbn [fold_left fst]. rewrite IH by lia. rewrite sumn_S. rewrite Nat.add_0_l.
    assert (S : sumn d (fun j => (x (lrR m ip) j - x (lrL m ip) j) * (gather (npe m) d d du oob (lrR m ip * d * d + k * d + j)%nat + gather (npe m) d d du oob (lrL m ip * d * d + k * d + j)%nat))
              = along_edge m x (fun n j => du n k j) ip).
    { unfold along_edge, step. fold d. apply sumn_ext. intros j Hj. rewrite !gather_at by (try assumption; lia). reflexivity. }
    rewrite S. ring. }
  rewrite (G d (e, 0)) by lia. reflexivity.
Qed.

(** the "dudx2" indicator: the fourth root of the mean square of the velocity change along the element's edges as predicted by the
    two nodal gradients (their sum, i.e. twice the mean) *)
Theorem C93_velocity_change_indicator m x du oob : maps_ok m ->
  fst (simple_indicator Dudx2 m x (gather (npe m) (ndim m) (ndim m) du oob))
  = sqrt (sqrt (point_mean m (fun ip => sumn (ndim m) (fun i => (along_edge m x (fun n j => du n i j) ip)^2) / INR (ndim m)))).
Proof.
  intros MO. unfold simple_indicator. cbn [fst].
  rewrite (fold_pts (g := fun ip => sumn (ndim m) (fun i => (along_edge m x (fun n j => du n i j) ip)^2))) by (intros; apply simple_dudx2_comps; assumption).
  do 2 f_equal. unfold point_mean. rewrite Rplus_0_l. unfold Rdiv.
  rewrite (sumn_ext (nscs m) (fun ip => sumn (ndim m) (fun i => along_edge m x (fun n j => du n i j) ip ^ 2) * / INR (ndim m))
     (fun ip => / INR (ndim m) * sumn (ndim m) (fun i => along_edge m x (fun n j => du n i j) ip ^ 2))) by (intros; ring).
  rewrite sumn_scal, Rinv_mult. ring.
Qed.

(** none of the options can raise the exception *)
Lemma sqrt_not_neg a : ~ sqrt a < 0.
Proof. intros H. pose proof (sqrt_pos a). lra. Qed.
Theorem C93_no_exception o m x D : snd (simple_indicator o m x D) = false /\ snd (scalar_indicator o m x D) = false
  /\ 0 <= fst (simple_indicator o m x D) /\ 0 <= fst (scalar_indicator o m x D).
Proof.
  unfold simple_indicator, scalar_indicator. cbn [fst snd]. repeat split.
  - destruct (Rlt_dec _ 0) as [H|]; [exfalso|reflexivity]. destruct o; exact (sqrt_not_neg _ H).
  - destruct (Rlt_dec _ 0) as [H|]; [exfalso; exact (sqrt_not_neg _ H)|reflexivity].
  - destruct o; apply sqrt_pos.
  - apply sqrt_pos.
Qed.

Lemma along_lin m x q g : lin_at m x q g -> maps_ok m -> forall ip, (ip < nscs m)%nat -> along_edge m x (fun _ => g) ip = 2 * step m q ip.
Proof.
  intros [c L] [MO _] ip Hip. destruct (MO ip Hip) as [HL HR]. unfold along_edge, step. rewrite (L _ HL), (L _ HR).
  replace (2 * (c + sumn (ndim m) (fun j => g j * x (lrR m ip) j) - (c + sumn (ndim m) (fun j => g j * x (lrL m ip) j))))
     with (2 * (sumn (ndim m) (fun j => g j * x (lrR m ip) j) - sumn (ndim m) (fun j => g j * x (lrL m ip) j))) by ring.
  rewrite <- sumn_minus, <- sumn_scal. apply sumn_ext. intros j _. ring.
Qed.
(** on a linear velocity with exact nodal gradients the argument of the roots is the mean square of TWICE the velocity differences *)
Theorem C93_linear_velocity_indicator m x u g du oob : maps_ok m ->
  (forall i, (i < ndim m)%nat -> lin_at m x (fun n => u n i) (g i)) ->
  (forall n i j, (n < npe m)%nat -> (i < ndim m)%nat -> (j < ndim m)%nat -> du n i j = g i j) ->
  fst (simple_indicator Dudx2 m x (gather (npe m) (ndim m) (ndim m) du oob))
  = sqrt (sqrt (point_mean m (fun ip => sumn (ndim m) (fun i => (2 * step m (fun n => u n i) ip)^2) / INR (ndim m)))).
Proof.
  intros MO L Hd. rewrite C93_velocity_change_indicator by assumption. do 2 f_equal. unfold point_mean. f_equal.
  apply sumn_ext. intros ip Hip. f_equal. apply sumn_ext. intros i Hi. rewrite <- (along_lin m x (fun n => u n i) (g i) (L i Hi) MO ip Hip). f_equal.
  destruct (proj1 MO ip Hip) as [HL HR]. unfold along_edge. apply sumn_ext. intros j Hj. rewrite !Hd by assumption. reflexivity.
Qed.
(** a uniform velocity is never flagged *)
Theorem C93_uniform_velocity_zero m x du oob : maps_ok m ->
  (forall n i j, (n < npe m)%nat -> (i < ndim m)%nat -> (j < ndim m)%nat -> du n i j = 0) ->
  fst (simple_indicator Dudx2 m x (gather (npe m) (ndim m) (ndim m) du oob)) = 0.
Proof.
  intros MO Hd. rewrite C93_velocity_change_indicator by assumption.
  replace (point_mean m _) with 0; [rewrite sqrt_0; apply sqrt_0|]. symmetry. unfold point_mean. rewrite (sumn_ext _ _ (fun _ => 0)).
  { rewrite sumn_zero by reflexivity. unfold Rdiv. ring. }
  intros ip Hip. destruct (proj1 MO ip Hip) as [HL HR]. unfold Rdiv. rewrite (sumn_ext _ _ (fun _ => 0)).
  { rewrite sumn_zero by reflexivity. ring. }
  intros i Hi. unfold along_edge. rewrite (sumn_ext _ _ (fun _ => 0)). { rewrite sumn_zero by reflexivity. ring. }
  intros j Hj. rewrite !Hd by assumption. ring.
Qed.

(** *** vorticity *)
Lemma vorticity_space npe du oob n : (n < npe)%nat -> vorticity 3 3 (gather npe 3 3 du oob) (n*3*3) = curl_mag (du n).
Proof.
  intros Hn. unfold vorticity, curl_mag. cbn [Nat.eqb].
  assert (E : forall i j, (i < 3)%nat -> (j < 3)%nat -> gather npe 3 3 du oob (n*3*3 + i*3 + j)%nat = du n i j) by (intros; apply gather_at; assumption).
  rewrite !E by lia. f_equal. ring.
Qed.
Lemma simple_vort_fst d x D il ir e : fst (simple_comps Vorticity d x D il ir (e, 0)) = e.
Proof.
  unfold simple_comps. enough (G : forall l st, fst (fold_left (fun (st : R * R) (i : nat) => (fst st, sqrt (snd st + (x ir i - x il i) * (x ir i - x il i)))) l st) = fst st) by (exact (G _ (e, 0))).
  induction l as [|a l IH]; intros st; [reflexivity|]. cbn [fold_left]. rewrite IH. reflexivity.
Qed.
(** in space the vorticity option is the square root of a third of the mean vorticity magnitude of the points' left nodes *)
Theorem C93_vorticity_indicator m x du oob : ndim m = 3%nat -> maps_ok m ->
  fst (simple_indicator Vorticity m x (gather (npe m) 3 3 du oob)) = sqrt (point_mean m (fun ip => curl_mag (du (lrL m ip))) / 3).
Proof.
  intros Hd MO. unfold simple_indicator. cbn [fst].
  rewrite (fold_pts (g := fun ip => curl_mag (du (lrL m ip)))).
  - f_equal. rewrite Hd, Rplus_0_l. unfold point_mean, Rdiv. rewrite Rinv_mult. replace (INR 3) with 3 by (cbn; ring). ring.
  - intros e ip Hip. unfold simple_point. rewrite Hd. rewrite simple_vort_fst. rewrite vorticity_space by (apply (proj1 MO ip Hip)). reflexivity.
Qed.
(** consequently irrotational flow is not flagged in space *)
Theorem C93_irrotational_zero m x du oob : ndim m = 3%nat -> maps_ok m ->
  (forall n i j, (n < npe m)%nat -> du n i j = du n j i) ->
  fst (simple_indicator Vorticity m x (gather (npe m) 3 3 du oob)) = 0.
Proof.
  intros Hd MO Sy. rewrite C93_vorticity_indicator by assumption. replace (point_mean m _) with 0.
  { unfold Rdiv. rewrite Rmult_0_l. apply sqrt_0. }
  symmetry. unfold point_mean. rewrite (sumn_ext _ _ (fun _ => 0)). { rewrite sumn_zero by reflexivity. unfold Rdiv. ring. }
  intros ip Hip. destruct (proj1 MO ip Hip) as [HL HR]. unfold curl_mag. rewrite (Sy _ 2%nat 1%nat HL), (Sy _ 0%nat 2%nat HL), (Sy _ 1%nat 0%nat HL).
  match goal with |- sqrt ?a = 0 => replace a with 0 by ring end. apply sqrt_0.
Qed.

(** in the plane it is not so: the third component, the only one a plane flow has, is dropped, and the other two read the gradient
    of the next node (or behind the array): a pure strain u = (x, -y), free of rotation, is flagged on a triangle *)
Definition tri3 : me := mkMe 3 3 3 2 (fun ip => nth ip [0; 1; 0]%nat 0%nat) (fun ip => nth ip [1; 2; 2]%nat 0%nat)
  (fun _ _ => 1/3) (fun _ _ => 1/3) (fun _ _ _ => 0) (fun _ _ _ => 0) (fun _ _ => 1) (fun ip => ip) (fun _ _ => 1/3) (fun _ => 1).
Lemma tri3_maps : maps_ok tri3.
Proof. split; intros ip H; cbn in H |- *; (assert (C : (ip = 0 \/ ip = 1 \/ ip = 2)%nat) by lia); destruct C as [->|[->| ->]]; cbn; lia. Qed.
Definition strain (n i j : nat) : R := if Nat.eqb i j then (if Nat.eqb i 0 then 1 else -1) else 0.
Theorem C93_planar_vorticity_refuted : (forall n i j, strain n i j = strain n j i) /\
  forall x oob, 0 < fst (simple_indicator Vorticity tri3 x (gather 3 2 2 strain oob)).
Proof.
  split. { intros n i j. unfold strain. rewrite (Nat.eqb_sym j i). destruct (Nat.eqb i j) eqn:E; [apply Nat.eqb_eq in E; subst; reflexivity|reflexivity]. }
  intros x oob. unfold simple_indicator. cbn [fst]. apply sqrt_lt_R0.
  rewrite (fold_pts (g := fun ip => vorticity 2 2 (gather 3 2 2 strain oob) (lrL tri3 ip * 2 * 2))).
  2:{ intros e ip _. unfold simple_point. rewrite simple_vort_fst. reflexivity. }
  cbn [tri3 nscs ndim lrL sumn nth]. 
  assert (V : forall r, (r = 0 \/ r = 4)%nat -> 1 <= vorticity 2 2 (gather 3 2 2 strain oob) r).
  { intros r Hr. unfold vorticity. cbn [Nat.eqb]. rewrite <- sqrt_1 at 1. apply sqrt_le_1_alt.
    destruct Hr; subst r; cbn -[Rmult Rplus Rminus]; nra. }
  pose proof (V 0%nat (or_introl eq_refl)). pose proof (V 4%nat (or_intror eq_refl)).
  rewrite !sumn_S. change (0 * 2 * 2)%nat with 0%nat. change (1 * 2 * 2)%nat with 4%nat. change (sumn 0 _) with 0.
  apply Rdiv_lt_0_compat; [lra|cbn; lra].
Qed.

(** the length that weights the vorticity in the "vorticity_dx" option takes a root after every component; along an edge of length 16
    on the x axis in space it is 2, along the same edge turned onto the z axis 16, while the length is the same *)
Definition edge_len (d : nat) (x : nat -> nat -> R) (il ir : nat) : R := sqrt (sumn d (fun i => (x ir i - x il i)^2)).
Definition on_axis (a : nat) (n i : nat) : R := if (Nat.eqb n 1 && Nat.eqb i a)%bool then 16 else 0.
Theorem C93_edge_length_refuted D e :
  edge_len 3 (on_axis 0) 0 1 = 16 /\ snd (simple_comps VorticityDx 3 (on_axis 0) D 0 1 (e, 0)) = 2
  /\ edge_len 3 (on_axis 2) 0 1 = 16 /\ snd (simple_comps VorticityDx 3 (on_axis 2) D 0 1 (e, 0)) = 16.
Proof.
  unfold edge_len, simple_comps, sumn. cbn [seq fold_left fst snd on_axis Nat.eqb andb].
  assert (S256 : sqrt 256 = 16) by (replace 256 with (16*16) by ring; apply sqrt_square; lra).
  assert (S16 : sqrt 16 = 4) by (replace 16 with (4*4) by ring; apply sqrt_square; lra).
  assert (S4 : sqrt 4 = 2) by (replace 4 with (2*2) by ring; apply sqrt_square; lra).
  repeat split.
  - replace (0 + (16-0)^2 + (0-0)^2 + (0-0)^2) with 256 by ring. exact S256.
  - replace (0 + (16-0)*(16-0)) with 256 by ring. rewrite S256. replace (16 + (0-0)*(0-0)) with 16 by ring. rewrite S16.
    replace (4 + (0-0)*(0-0)) with 4 by ring. exact S4.
  - replace (0 + (0-0)^2 + (0-0)^2 + (16-0)^2) with 256 by ring. exact S256.
  - replace (0 + (0-0)*(0-0)) with 0 by ring. rewrite sqrt_0. replace (0 + (0-0)*(0-0)) with 0 by ring. rewrite sqrt_0.
    replace (0 + (16-0)*(16-0)) with 256 by ring. exact S256.
Qed.

(** *** the scalar version *)
Lemma scalar_dudx2 m x g oob ip e : maps_ok m -> (ip < nscs m)%nat ->
  scalar_point Dudx2 m x (gather (npe m) 1 (ndim m) (fun n _ j => g n j) oob) ip e = e + (along_edge m x g ip / 2)^2.
Proof.
  intros [MO _] Hip. destruct (MO ip Hip) as [HL HR]. unfold scalar_point.
  match goal with |- e + ?a * ?a = _ => assert (E : a = along_edge m x g ip / 2) end.
  { unfold along_edge, step, Rdiv. rewrite (Rmult_comm _ (/2)), <- sumn_scal. apply sumn_ext. intros j Hj.
    rewrite !(gather_at _ 1 (ndim m) _ _ _ 0 j) by (try assumption; lia). ring. }
  rewrite E. ring.
Qed.
(** the root mean square, over the element's points, of the edge difference predicted by the mean of the two nodal gradients *)
Theorem C93_scalar_indicator m x g oob : maps_ok m ->
  fst (scalar_indicator Dudx2 m x (gather (npe m) 1 (ndim m) (fun n _ j => g n j) oob)) = sqrt (point_mean m (fun ip => (along_edge m x g ip / 2)^2)).
Proof.
  intros MO. unfold scalar_indicator. cbn [fst].
  rewrite (fold_pts (g := fun ip => (along_edge m x g ip / 2)^2)) by (intros; apply scalar_dudx2; assumption).
  f_equal. unfold point_mean. rewrite Rplus_0_l, Rmult_1_l. reflexivity.
Qed.
(** with exact nodal gradients of a linear field: exactly the root mean square of the nodal differences *)
Theorem C93_scalar_linear m x q g oob : maps_ok m -> lin_at m x q g ->
  fst (scalar_indicator Dudx2 m x (gather (npe m) 1 (ndim m) (fun _ _ j => g j) oob)) = sqrt (point_mean m (fun ip => (step m q ip)^2)).
Proof.
  intros MO L. rewrite (C93_scalar_indicator m x (fun _ => g) oob MO). f_equal. unfold point_mean. f_equal. apply sumn_ext. intros ip Hip.
  rewrite (along_lin m x q g L MO ip Hip). f_equal. field.
Qed.
(** asked for a vorticity option, the scalar version always reports zero, whatever lies in memory *)
Theorem C93_scalar_vorticity_zero m x D o : o = Vorticity \/ o = VorticityDx -> fst (scalar_indicator o m x D) = 0.
Proof.
  intros Ho. assert (V : forall r, vorticity (ndim m) 1 D r = 0).
  { intros r. unfold vorticity. rewrite !Nat.mul_1_r. replace (r+2+1)%nat with (r+1+2)%nat by lia. replace (r+0+2)%nat with (r+2+0)%nat by lia. replace (r+1+0)%nat with (r+0+1)%nat by lia.
    destruct (Nat.eqb _ 3); match goal with |- sqrt ?a = 0 => replace a with 0 by ring end; apply sqrt_0. }
  unfold scalar_indicator. cbn [fst].
  rewrite (fold_pts (g := fun _ => 0)).
  - rewrite sumn_zero by reflexivity. replace ((0+0)/(1*INR (nscs m))) with 0 by (unfold Rdiv; ring). apply sqrt_0.
  - intros e ip _. unfold scalar_point. destruct Ho; subst o; rewrite V; ring.
Qed.

(** *** pressure stabilisation *)
(** flux of the difference between the pressure gradient at a point and the interpolated nodal gradient, direction by direction *)
Definition pstab_mismatch (m : me) (p : nat -> R) (G : nat -> nat -> R) (ip j : nat) : R :=
  (sumn (npe m) (fun ic => dndx m ip ic j * p ic) - sumn (npe m) (fun ic => Ns m ip ic * G ic j)) * area m ip j.
Theorem C93_pstab_elem_value dt gamma1 m p G :
  pstab_elem false dt gamma1 m p G = sqrt (sumn (nscs m) (fun ip => sumn (ndim m) (fun j => (dt/gamma1 * pstab_mismatch m p G ip j)^2))).
Proof.
  unfold pstab_elem. f_equal.
  rewrite (fold_pts (g := fun ip => sumn (ndim m) (fun j => (dt/gamma1 * pstab_mismatch m p G ip j)^2))); [ring|].
  intros e ip _. rewrite (fold_pts (g := fun j => (dt/gamma1 * pstab_mismatch m p G ip j)^2)); [reflexivity|].
  intros e' j _. unfold pstab_mismatch, at_scs. ring.
Qed.
Lemma sumn_sq_zero n (f : nat -> R) : (forall k, (k < n)%nat -> 0 <= f k) -> sumn n f = 0 -> forall k, (k < n)%nat -> f k = 0.
Proof.
  induction n as [|n IH]; intros P E k Hk; [lia|]. rewrite sumn_S in E.
  assert (0 <= sumn n f) by (apply sumn_nonneg; intros; apply P; lia). assert (0 <= f n) by (apply P; lia).
  destruct (Nat.eq_dec k n) as [->|]; [lra|]. apply IH; [intros; apply P; lia|lra|lia].
Qed.
(** it is zero exactly where stabilisation adds nothing *)
Theorem C93_pstab_elem_zero_iff dt gamma1 m p G : 0 < dt -> 0 < gamma1 ->
  (pstab_elem false dt gamma1 m p G = 0 <-> forall ip j, (ip < nscs m)%nat -> (j < ndim m)%nat -> pstab_mismatch m p G ip j = 0).
Proof.
  intros Hd Hg. rewrite C93_pstab_elem_value. assert (T : 0 < dt/gamma1) by (apply Rdiv_lt_0_compat; assumption).
  assert (N : forall ip, 0 <= sumn (ndim m) (fun j => (dt/gamma1 * pstab_mismatch m p G ip j)^2)) by (intros; apply sumn_nonneg; intros; apply pow2_ge_0).
  split.
  - intros E ip j Hip Hj. apply sqrt_eq_0 in E; [|apply sumn_nonneg; intros; apply N].
    pose proof (sumn_sq_zero _ _ (fun k _ => N k) E ip Hip) as E1. cbv beta in E1.
    pose proof (sumn_sq_zero _ _ (fun k _ => pow2_ge_0 _) E1 j Hj) as E2. cbv beta in E2.
    assert (E3 : (dt/gamma1 * pstab_mismatch m p G ip j) * (dt/gamma1 * pstab_mismatch m p G ip j) = 0) by (rewrite <- E2; ring).
    apply Rmult_integral in E3. destruct E3 as [E3|E3]; apply Rmult_integral in E3; destruct E3; lra.
  - intros Z. replace (sumn (nscs m) _) with 0; [apply sqrt_0|]. symmetry. rewrite (sumn_ext _ _ (fun _ => 0)). { apply sumn_zero; reflexivity. }
    intros ip Hip. rewrite (sumn_ext _ _ (fun _ => 0)). { apply sumn_zero; reflexivity. } intros j Hj. rewrite Z by assumption. ring.
Qed.
(** in particular for a linear pressure with exact nodal gradients, on any element whose gradient operator is exact *)
Theorem C93_pstab_elem_linear dt gamma1 m x p g : unity (npe m) (nscs m) (Ns m) -> grad_linear_exact m x -> lin_at m x p g ->
  pstab_elem false dt gamma1 m p (fun _ => g) = 0.
Proof.
  intros U [GU GL] [c L]. rewrite C93_pstab_elem_value. replace (sumn (nscs m) _) with 0; [apply sqrt_0|]. symmetry.
  rewrite (sumn_ext _ _ (fun _ => 0)). { apply sumn_zero; reflexivity. } intros ip Hip.
  rewrite (sumn_ext _ _ (fun _ => 0)). { apply sumn_zero; reflexivity. } intros j Hj. unfold pstab_mismatch.
  assert (E1 : sumn (npe m) (fun ic => dndx m ip ic j * p ic) = g j).
  { rewrite (sumn_ext _ _ (fun ic => c * dndx m ip ic j + sumn (ndim m) (fun k => g k * (dndx m ip ic j * x ic k)))).
    2:{ intros ic Hic. rewrite (L ic Hic). rewrite Rmult_plus_distr_l. rewrite <- (sumn_scal _ (dndx m ip ic j)). f_equal; [ring|]. apply sumn_ext; intros; ring. }
    rewrite sumn_plus, sumn_scal, (GU ip j Hip Hj), sumn_swap.
    rewrite (sumn_ext (ndim m) _ (fun k => (if Nat.eqb j k then 1 else 0) * g k)).
    - rewrite Rmult_0_r, Rplus_0_l. rewrite (sumn_ext (ndim m) _ (fun k => dl k j * g k)); [exact (sumn_dl (ndim m) j g Hj)|].
      intros k _. unfold dl. rewrite (Nat.eqb_sym k j). reflexivity.
    - intros k Hk. rewrite sumn_scal, (GL ip j k Hip Hj Hk). ring. }
  assert (E2 : sumn (npe m) (fun ic => Ns m ip ic * g j) = g j).
  { rewrite sumn_scal_r, (U ip Hip). ring. }
  rewrite E1, E2. ring.
Qed.
(** the simplified version (heat conduction) measures the gradient itself: on a linear field, |time scale| times the size of the flux components *)
Theorem C93_simple_gradient_elem dt gamma1 m p G : pstab_elem true dt gamma1 m p G
  = sqrt (sumn (nscs m) (fun ip => sumn (ndim m) (fun j => (dt/gamma1 * (sumn (npe m) (fun ic => dndx m ip ic j * p ic) * area m ip j))^2))).
Proof.
  unfold pstab_elem. f_equal.
  rewrite (fold_pts (g := fun ip => sumn (ndim m) (fun j => (dt/gamma1 * (sumn (npe m) (fun ic => dndx m ip ic j * p ic) * area m ip j))^2))); [ring|].
  intros e ip _. rewrite (fold_pts (g := fun j => (dt/gamma1 * (sumn (npe m) (fun ic => dndx m ip ic j * p ic) * area m ip j))^2)); [reflexivity|].
  intros e' j _. ring.
Qed.

(** the edge-based version: what is squared is the flux with which the projected edge gradient and the mean nodal gradient differ *)
Lemma pstab_one_edge_value noc dt gamma1 d X p G e : sumn d (fun j => eA e j * (X (eR e) j - X (eL e) j)) <> 0 ->
  pstab_one_edge false noc dt gamma1 d X p G e
  = dt/gamma1 * (sumn d (fun j => eA e j * eA e j) / sumn d (fun j => eA e j * (X (eR e) j - X (eL e) j)))
    * ((if noc then sumn d (fun j => (G (eR e) j + G (eL e) j)/2 * (X (eR e) j - X (eL e) j)) else 0) - (p (eR e) - p (eL e))).
Proof.
  intros Ha. unfold pstab_one_edge. destruct (Rlt_dec 0 1) as [_|N]; [|lra].
  set (axdx := sumn d (fun j => eA e j * (X (eR e) j - X (eL e) j))) in *. set (asq := sumn d (fun j => eA e j * eA e j)).
  rewrite (fold_pts (g := fun j => dt/gamma1 * (asq/axdx) * (if noc then 1 else 0) * ((G (eR e) j + G (eL e) j)/2 * (X (eR e) j - X (eL e) j)))).
  - rewrite sumn_scal. destruct noc; unfold Rdiv; ring.
  - intros v j _. unfold Rdiv. ring.
Qed.
Theorem C93_pstab_edge_linear dt gamma1 d X p g c es : (forall n, p n = c + sumn d (fun j => g j * X n j)) ->
  (forall e, In e es -> sumn d (fun j => eA e j * (X (eR e) j - X (eL e) j)) <> 0) ->
  pstab_edges false true dt gamma1 d X p (fun _ => g) es = 0.
Proof.
  intros L Ha. unfold pstab_edges.
  assert (G : forall l s, (forall e, In e l -> sumn d (fun j => eA e j * (X (eR e) j - X (eL e) j)) <> 0) ->
    fold_left (fun s e => s + pstab_one_edge false true dt gamma1 d X p (fun _ => g) e * pstab_one_edge false true dt gamma1 d X p (fun _ => g) e) l s = s).
  { induction l as [|e l IH]; intros s H; [reflexivity|]. cbn [fold_left]. rewrite IH by (intros; apply H; right; assumption).
    rewrite pstab_one_edge_value by (apply H; left; reflexivity). rewrite !L.
    replace (sumn d (fun j => (g j + g j)/2 * (X (eR e) j - X (eL e) j))) with (sumn d (fun j => g j * X (eR e) j) - sumn d (fun j => g j * X (eL e) j)).
    - ring.
    - rewrite <- sumn_minus. apply sumn_ext. intros j _. field. }
  rewrite G by assumption. apply sqrt_0.
Qed.
(** without the non-orthogonal correction (get_noc_usage false) the whole nodal gradient is dropped, not only its non-orthogonal part:
    a linear pressure is flagged even on an orthogonal mesh *)
Definition unit_edge : edge := mkEdge 0 1 (fun j => if Nat.eqb j 0 then 1 else 0).
Theorem C93_no_correction_refuted : exists (X : nat -> nat -> R) (p : nat -> R) (g : nat -> R),
  (forall n, p n = 0 + sumn 2 (fun j => g j * X n j)) /\
  (forall j, (j < 2)%nat -> eA unit_edge j = X (eR unit_edge) j - X (eL unit_edge) j) /\
  pstab_edges false false 1 1 2 X p (fun _ => g) [unit_edge] = 1 /\ pstab_edges false true 1 1 2 X p (fun _ => g) [unit_edge] = 0.
Proof.
  exists (fun n j => if (Nat.eqb n 1 && Nat.eqb j 0)%bool then 1 else 0), (fun n => if Nat.eqb n 1 then 1 else 0), (fun j => if Nat.eqb j 0 then 1 else 0).
  split. { intros n. unfold sumn. cbn [seq fold_left Nat.eqb andb]. rewrite andb_true_r, andb_false_r. destruct (Nat.eqb n 1); cbn [andb]; ring. }
  split. { intros j Hj. cbn. destruct (Nat.eqb j 0); ring. }
  unfold pstab_edges. cbn [fold_left].
  assert (A : sumn 2 (fun j => eA unit_edge j * ((if (Nat.eqb (eR unit_edge) 1 && Nat.eqb j 0)%bool then 1 else 0) - (if (Nat.eqb (eL unit_edge) 1 && Nat.eqb j 0)%bool then 1 else 0))) = 1) by (cbn; ring).
  split; rewrite !pstab_one_edge_value by (rewrite A; lra); rewrite A; cbn [unit_edge eA eR eL sumn Nat.eqb andb];
    unfold sumn; cbn [seq fold_left Nat.eqb];
    match goal with |- sqrt ?a = ?b => replace a with b by field end; [apply sqrt_1|apply sqrt_0].
Qed.

(** *** limiter *)
Lemma half_sq a b : 0 <= a <= 1 -> 0 <= b <= 1 -> (1/2)*(a*a + b*b) <= 1.
Proof. intros. nra. Qed.
Lemma limiter_point_eff m x u D ip : exists v, (forall e, limiter_point m x u D ip e = e + v) /\ 0 <= v <= INR (ndim m).
Proof.
  unfold limiter_point. set (d := ndim m).
  set (t := fun i => sqrt ((1/2)*(van_leer (2*2*sumn d (fun j => (x (lrR m ip) j - x (lrL m ip) j) * D (lrL m ip*d*d + i*d + j)%nat) - (u (lrR m ip) i - u (lrL m ip) i)) (u (lrR m ip) i - u (lrL m ip) i) (1/10^16)
        * van_leer (2*2*sumn d (fun j => (x (lrR m ip) j - x (lrL m ip) j) * D (lrL m ip*d*d + i*d + j)%nat) - (u (lrR m ip) i - u (lrL m ip) i)) (u (lrR m ip) i - u (lrL m ip) i) (1/10^16)
        + van_leer (2*2*sumn d (fun j => (x (lrR m ip) j - x (lrL m ip) j) * D (lrR m ip*d*d + i*d + j)%nat) - (u (lrR m ip) i - u (lrL m ip) i)) (u (lrR m ip) i - u (lrL m ip) i) (1/10^16)
        * van_leer (2*2*sumn d (fun j => (x (lrR m ip) j - x (lrL m ip) j) * D (lrR m ip*d*d + i*d + j)%nat) - (u (lrR m ip) i - u (lrL m ip) i)) (u (lrR m ip) i - u (lrL m ip) i) (1/10^16)))).
  exists (sumn d t). split.
  - intros e. apply (fold_pts (g := t)). intros; reflexivity.
  - assert (P : 0 < 1/10^16) by (apply Rdiv_lt_0_compat; [lra|apply pow_lt; lra]).
    assert (B : forall i, 0 <= t i <= 1).
    { intros i. unfold t. split; [apply sqrt_pos|]. apply Rle_trans with (sqrt 1); [apply sqrt_le_1_alt|rewrite sqrt_1; lra].
      apply half_sq; apply van_leer_range; exact P. }
    split; [apply sumn_nonneg; intros; apply B|]. clearbody t. clear -B. induction d as [|d IH]; [cbn; lra|]. rewrite sumn_S, S_INR. specialize (B d). apply Rplus_le_compat; [exact IH|apply B].
Qed.
(** the limiter indicator stays between 1e-8 and 1 + 1e-8, so its exception is never raised *)
Theorem C93_limiter_bounds m x u D : (0 < ndim m)%nat -> (0 < nscs m)%nat ->
  1/10^8 <= fst (limiter_indicator m x u D) <= 1 + 1/10^8 /\ snd (limiter_indicator m x u D) = false.
Proof.
  intros Hd Hn. unfold limiter_indicator. cbn [fst snd].
  assert (E : exists v, fold_left (fun e ip => limiter_point m x u D ip e) (seq 0 (nscs m)) 0 = v /\ 0 <= v <= INR (ndim m) * INR (nscs m)).
  { clear Hd. induction (nscs m) as [|n IH] in Hn |- *; [lia|]. rewrite seq_S, fold_left_app. cbn [fold_left]. rewrite Nat.add_0_l.
    destruct (limiter_point_eff m x u D n) as (v & Ev & Bv). rewrite Ev. eexists. split; [reflexivity|]. rewrite S_INR.
    destruct n as [|n]. { cbn [seq fold_left INR]. lra. }
    destruct IH as (w & Ew & Bw); [lia|]. rewrite Ew. lra. }
  destruct E as (v & -> & Bv). assert (P : 0 < INR (ndim m) * INR (nscs m)) by (apply Rmult_lt_0_compat; apply lt_0_INR; assumption).
  set (T := INR (ndim m) * INR (nscs m)) in *.
  assert (0 <= v/T) by (apply Rmult_le_pos; [lra|left; apply Rinv_0_lt_compat; exact P]).
  assert (v/T <= 1). { apply (Rmult_le_reg_r T); [exact P|]. unfold Rdiv. rewrite Rmult_assoc, Rinv_l by lra. lra. }
  assert (0 < 1/10^8) by (apply Rdiv_lt_0_compat; [lra|apply pow_lt; lra]).
  split; [lra|]. destruct (Rlt_dec _ 0); [lra|reflexivity].
Qed.
(** a smooth (linear) field with exact gradients should get the smallest value 1e-8 (up to the guard in the limiter); the factor four
    instead of two in front of the projected difference makes it about 1/4: the indicator of u = x along a unit edge *)
Definition line2 : me := mkMe 2 1 2 1 (fun _ => 0%nat) (fun _ => 1%nat) (fun _ _ => 1/2) (fun _ _ => 1/2) (fun _ _ _ => 0) (fun _ _ _ => 0) (fun _ _ => 1) (fun ip => ip) (fun _ _ => 1/2) (fun _ => 1/2).
Theorem C93_limiter_linear_refuted : let x := fun n (_ : nat) => INR n in
  lin_at line2 x (fun n => x n 0%nat) (fun _ => 1) /\ 1/4 < fst (limiter_indicator line2 x x (fun _ => 1)).
Proof.
  intros x. split. { exists 0. intros n _. unfold x. cbn [line2 ndim]. rewrite sumn_S. change (sumn 0 _) with 0. ring. }
  assert (P : 0 < 1/10^16) by (apply Rdiv_lt_0_compat; [lra|apply pow_lt; lra]).
  assert (P8 : 0 < 1/10^8) by (apply Rdiv_lt_0_compat; [lra|apply pow_lt; lra]).
  unfold limiter_indicator, limiter_point. cbn [line2 fst ndim nscs lrL lrR seq fold_left sumn].
  unfold x. cbn [INR seq fold_left]. set (s := 1/10^16) in *. set (eps := 1/10^8) in *.
  assert (V : van_leer (2*2*(0 + (1-0)*1) - (1-0)) (1-0) s <= 3/4).
  { rewrite van_leer_same by lra. apply (Rmult_le_reg_r ((2*2*(0 + (1-0)*1) - (1-0) + (1-0))*(2*2*(0 + (1-0)*1) - (1-0) + (1-0)) + s)); [nra|].
    unfold Rdiv at 1. rewrite Rmult_assoc, Rinv_l by nra. nra. }
  pose proof (van_leer_range (2*2*(0 + (1-0)*1) - (1-0)) (1-0) s P) as R.
  set (v := van_leer _ _ s) in *. rewrite Rplus_0_l. replace ((1/2)*(v*v + v*v)) with (v*v) by field. rewrite sqrt_square by lra.
  replace (v / (1*1)) with v by field. cbn [line2 fst]. try lra.
Qed.
