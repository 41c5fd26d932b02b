(** * C66: turbulence sources keep k, omega, epsilon non-negative; clipping *)
From Coq Require Import Reals List Bool Arith Lia Lra Psatz.
From Verif Require Import Edge_Model Edge_Proofs Elem_Model Elem_Spec Elem_Proofs Elem_Proofs2 Elem_Props Elem_Props3 Tensor_Props Turb_Model Turb_Props.
Import ListNotations.
Local Open Scope R_scope.

(* ------------------------------------------------------------ production *)
Lemma prod2_strain n g : prod2 n g = 2 * frob2 n (sij g).
Proof.
  assert (E : 2 * frob2 n (sij g) = (1/2) * (prod2 n g + prod2 n g)).
  { unfold frob2, prod2. rewrite <- !sumn_scal.
    replace (sumn n (fun i => sumn n (fun j => g i j * (g i j + g j i))) + sumn n (fun i => sumn n (fun j => g i j * (g i j + g j i))))
      with (sumn n (fun i => sumn n (fun j => g i j * (g i j + g j i))) + sumn n (fun i => sumn n (fun j => g j i * (g i j + g j i)))).
    - rewrite <- sumn_plus, <- sumn_scal. apply sumn_ext. intros i _.
      rewrite <- sumn_plus, <- !sumn_scal. apply sumn_ext. intros j _. unfold sij. field.
    - f_equal. rewrite sumn_swap. apply sumn_ext. intros i _. apply sumn_ext. intros j _. ring. }
  lra.
Qed.
(** The production term is twice the strain-rate tensor contracted with itself: it is non-negative, independent of the
    axes, and unaffected by rigid rotation. *)
Theorem C66_production_is_strain n g :
  prod2 n g = 2 * sumn n (fun i => sumn n (fun j => ((g i j + g j i) / 2) ^ 2)) /\ 0 <= prod2 n g /\
  (forall Q, orth n Q -> prod2 n (turned n Q g) = prod2 n g) /\
  (forall w, antisym w -> prod2 n (fun i j => g i j + w i j) = prod2 n g).
Proof.
  repeat split.
  - rewrite prod2_strain. f_equal. unfold frob2. apply sumn_ext. intros i _. apply sumn_ext. intros j _. unfold sij. field.
  - rewrite prod2_strain. pose proof (frob2_nonneg n (sij g)). lra.
  - intros Q H. rewrite !prod2_strain. f_equal. rewrite <- (frob2_turned n Q (sij g) H). apply frob2_ext. intros; apply sij_turned.
  - intros w H. rewrite !prod2_strain. f_equal. apply frob2_ext. intros; apply sij_plus_antisym; exact H.
Qed.
Lemma prod2_nonneg n g : 0 <= prod2 n g. Proof. apply C66_production_is_strain. Qed.
Theorem C66_production_limited ratio P D : limited ratio P D = Rmin P (ratio * D).
Proof. unfold limited, Rmin. destruct Rlt_dec, Rle_dec; lra. Qed.
Lemma limited_nonneg ratio P D : 0 <= ratio -> 0 <= P -> 0 <= D -> 0 <= limited ratio P D.
Proof. intros. unfold limited. destruct Rlt_dec; nra. Qed.

(** in one to three dimensions the deviatoric production is non-negative: 2 S:S - 2/3 (div u)^2 >= 0, so the k-epsilon
    production never needs its floor when there is no compression work *)
Lemma trace_cs n f : sumn n f * sumn n f <= INR n * sumn n (fun i => f i * f i).
Proof.
  induction n; [rewrite !sumn_0; cbn; lra|]. rewrite !sumn_S, S_INR.
  set (s := sumn n f) in *. set (q := sumn n (fun i => f i * f i)) in *. set (x := f n). pose proof (pos_INR n). set (m := INR n) in *.
  assert (Hq : 0 <= q) by (unfold q; apply Edge_Proofs.sumn_nonneg; intros; apply Rle_0_sqr).
  assert (2 * s * x <= q + m * (x * x)).
  { destruct (Req_dec m 0) as [E|E].
    - assert (s * s <= 0) by nra. assert (s = 0) by nra. nra.
    - assert (0 < m) by lra. assert (0 <= (s - m * x) * (s - m * x)) by apply Rle_0_sqr.
      assert (m * (2 * s * x) <= m * (q + m * (x * x))) by nra. apply Rmult_le_reg_l in H2; assumption. }
  nra.
Qed.
Theorem C66_keps_production n inc rho tke mut g : (n <= 3)%nat -> 0 <= mut ->
  0 <= prod_keps n inc rho tke mut g /\
  (inc = 0 -> prod_keps n inc rho tke mut g = mut * prod2 n g) /\
  (inc = 1 -> rho * tke * sumn n (fun i => g i i) <= 0 ->
     prod_keps n inc rho tke mut g = mut * (prod2 n g - 2/3 * (sumn n (fun i => g i i)) ^ 2) - 2/3 * rho * tke * sumn n (fun i => g i i)).
Proof.
  intros Hn Hm. split; [apply Rmax_l|]. pose proof (prod2_nonneg n g) as P. split.
  - intros ->. unfold prod_keps. cbv zeta. rewrite (sumn_ext n _ (fun _ => 0)) by (intros; ring). rewrite sumn_zero by reflexivity.
    rewrite Rmax_right; [ring|]. assert (0 <= mut * prod2 n g) by (apply Rmult_le_pos; assumption). lra.
  - intros -> H. unfold prod_keps. cbv zeta. rewrite (sumn_ext n _ (fun i => g i i)) by (intros; ring).
    set (d := sumn n (fun i => g i i)) in *. rewrite Rmax_right; [ring|].
    assert (2/3 * d * d <= prod2 n g).
    { rewrite prod2_strain. assert (A : d * d <= 3 * frob2 n (sij g)); [|lra].
      eapply Rle_trans; [apply trace_cs|].
      assert (B : sumn n (fun i => g i i * g i i) <= frob2 n (sij g)).
      { unfold frob2. apply Prop_Props.sumn_le. intros i Hi.
        replace (g i i * g i i) with (sumn n (fun j => kd j i * (sij g i j * sij g i j)))
          by (rewrite (sumn_kd n i (fun j => sij g i j * sij g i j) Hi); unfold sij; field).
        apply Prop_Props.sumn_le. intros j _. unfold kd. destruct Nat.eqb; pose proof (Rle_0_sqr (sij g i j)) as Z; unfold Rsqr in Z; lra. }
      assert (INR n <= 3) by (replace 3 with (INR 3) by (cbn; ring); apply le_INR; exact Hn).
      assert (0 <= sumn n (fun i => g i i * g i i)) by (apply Edge_Proofs.sumn_nonneg; intros; apply Rle_0_sqr). nra. }
    assert (0 <= mut * (prod2 n g - 2/3 * d * d)) by (apply Rmult_le_pos; lra). lra.
Qed.

(* ------------------------------------------------------------ positivity of the implicit update *)
(** matrix of the transport terms: positive diagonal dominance by rows with non-positive off-diagonals *)
Definition mmatrix (N : nat) (A : nat -> nat -> R) : Prop :=
  (forall i j, (i < N)%nat -> (j < N)%nat -> i <> j -> A i j <= 0) /\ (forall i, (i < N)%nat -> 0 < sumn N (fun j => A i j)).
(** the nodal update solved by the equation system: (A + diag L) delta = b - A q + S, q' = q + delta *)
Definition updated (N : nat) (A : nat -> nat -> R) (L b S q q' : nat -> R) : Prop :=
  forall i, (i < N)%nat -> sumn N (fun j => A i j * (q' j - q j)) + L i * (q' i - q i) = b i - sumn N (fun j => A i j * q j) + S i.

Lemma argmin N (f : nat -> R) : (0 < N)%nat -> exists m, (m < N)%nat /\ forall i, (i < N)%nat -> f m <= f i.
Proof.
  induction N as [|N IH]; [lia|]. intros _. destruct N as [|N].
  - exists 0%nat. split; [lia|]. intros i Hi. replace i with 0%nat by lia. lra.
  - destruct IH as (m & Hm & H); [lia|]. destruct (Rle_lt_dec (f m) (f (S N))) as [C|C].
    + exists m. split; [lia|]. intros i Hi. destruct (Nat.eq_dec i (S N)) as [->|]; [exact C|apply H; lia].
    + exists (S N). split; [lia|]. intros i Hi. destruct (Nat.eq_dec i (S N)) as [->|]; [lra|]. specialize (H i). assert (f m <= f i) by (apply H; lia). lra.
Qed.
Lemma mmatrix_pos N A L x c : mmatrix N A -> (forall i, (i < N)%nat -> 0 <= L i) -> (forall i, (i < N)%nat -> 0 <= c i) ->
  (forall i, (i < N)%nat -> sumn N (fun j => A i j * x j) + L i * x i = c i) -> forall i, (i < N)%nat -> 0 <= x i.
Proof.
  intros [H1 H2] HL Hc E i Hi. destruct (argmin N x) as (m & Hm & Hmin); [lia|].
  assert (0 <= x m); [|specialize (Hmin i Hi); lra].
  destruct (Rle_lt_dec 0 (x m)) as [|Neg]; [assumption|exfalso].
  assert (SS : sumn N (fun j => A m j * x j) <= sumn N (fun j => A m j * x m)).
  { apply Prop_Props.sumn_le. intros j Hj. destruct (Nat.eq_dec m j) as [<-|D]; [lra|]. specialize (H1 m j Hm Hj D). specialize (Hmin j Hj). nra. }
  rewrite sumn_scal_r in SS. specialize (H2 m Hm). specialize (E m Hm). specialize (Hc m Hm). specialize (HL m Hm).
  change (sumn N (fun j => A m j)) with (sumn N (A m)) in H2. assert (sumn N (A m) * x m < 0) by nra. assert (L m * x m <= 0) by nra. lra.
Qed.
(** Whatever M-matrix the transport discretisation gives, a source with L q + S >= 0, L >= 0 keeps the unknown non-negative. *)
Lemma update_nonneg N A L b S q q' : mmatrix N A -> (forall i, (i < N)%nat -> 0 <= L i) ->
  (forall i, (i < N)%nat -> 0 <= b i) -> (forall i, (i < N)%nat -> 0 <= L i * q i + S i) -> updated N A L b S q q' ->
  forall i, (i < N)%nat -> 0 <= q' i.
Proof.
  intros HA HL Hb HS U. apply (mmatrix_pos N A L q' (fun i => b i + (L i * q i + S i)) HA HL).
  - intros i Hi. specialize (Hb i Hi). specialize (HS i Hi). lra.
  - intros i Hi. specialize (U i Hi). rewrite (sumn_ext N (fun j => A i j * (q' j - q j)) (fun j => A i j * q' j - A i j * q j)) in U by (intros; ring).
    rewrite sumn_minus in U. lra.
Qed.
Lemma sqrt_sq x : 0 <= x -> sqrt x * sqrt x = x. Proof. apply sqrt_sqrt. Qed.

Theorem C66_sst_k_stays_nonnegative N A n ratio bs (rho tke sdr mut vol : nat -> R) (G : nat -> mat) b q' :
  mmatrix N A -> (forall i, (i < N)%nat -> 0 <= b i) -> 0 <= ratio -> 0 <= bs ->
  (forall i, (i < N)%nat -> 0 <= rho i /\ 0 <= tke i /\ 0 <= sdr i /\ 0 <= mut i /\ 0 <= vol i) ->
  let src i := src_tke_sst n ratio bs (rho i) (tke i) (sdr i) (mut i) (vol i) (G i) in
  updated N A (fun i => fst (src i)) b (fun i => snd (src i)) tke q' -> forall i, (i < N)%nat -> 0 <= q' i.
Proof.
  intros HA Hb Hr Hs H src U. eapply (update_nonneg N A _ b _ tke q' HA); [| exact Hb| |exact U].
  - intros i Hi. destruct (H i Hi) as (h1 & h2 & h3 & h4 & h5). cbn. repeat apply Rmult_le_pos; assumption.
  - intros i Hi. destruct (H i Hi) as (h1 & h2 & h3 & h4 & h5). unfold src, src_tke_sst. cbv zeta. cbn [fst snd].
    set (D := bs * rho i * sdr i * tke i). assert (HD : 0 <= D) by (unfold D; repeat apply Rmult_le_pos; assumption).
    assert (HP : 0 <= limited ratio (prod2 n (G i) * mut i) D) by (apply limited_nonneg; [assumption|apply Rmult_le_pos; [apply prod2_nonneg|assumption]|assumption]).
    set (P := limited _ _ _) in *. replace (bs * rho i * sdr i * vol i * tke i + (P - D) * vol i) with (P * vol i) by (unfold D; ring).
    apply Rmult_le_pos; assumption.
Qed.
Lemma l_des_pos bs ckw cke f tke sdr lmax : 0 < l_des bs ckw cke f tke sdr lmax.
Proof. unfold l_des. eapply Rlt_le_trans; [|apply Rmax_l]. lra. Qed.
Theorem C66_des_k_stays_nonnegative N A n ratio bs ckw cke (f rho tke sdr mut lmax vol : nat -> R) (G : nat -> mat) b q' :
  mmatrix N A -> (forall i, (i < N)%nat -> 0 <= b i) -> 0 <= ratio ->
  (forall i, (i < N)%nat -> 0 <= rho i /\ 0 <= tke i /\ 0 <= mut i /\ 0 <= vol i) ->
  let src i := src_tke_des n ratio bs ckw cke (f i) (rho i) (tke i) (sdr i) (mut i) (lmax i) (vol i) (G i) in
  updated N A (fun i => fst (src i)) b (fun i => snd (src i)) tke q' -> forall i, (i < N)%nat -> 0 <= q' i.
Proof.
  intros HA Hb Hr H src U. eapply (update_nonneg N A _ b _ tke q' HA); [| exact Hb| |exact U].
  - intros i Hi. destruct (H i Hi) as (h1 & h2 & h4 & h5). unfold src, src_tke_des. cbv zeta. cbn [fst snd].
    pose proof (l_des_pos bs ckw cke (f i) (tke i) (sdr i) (lmax i)). set (l := l_des _ _ _ _ _ _ _) in *.
    apply Rmult_le_pos; [|assumption]. apply Rmult_le_pos; [|apply sqrt_pos]. apply div_nonneg; lra.
  - intros i Hi. destruct (H i Hi) as (h1 & h2 & h4 & h5). unfold src, src_tke_des. cbv zeta. cbn [fst snd].
    pose proof (l_des_pos bs ckw cke (f i) (tke i) (sdr i) (lmax i)) as Pl. set (l := l_des _ _ _ _ _ _ _) in *.
    set (D := rho i * tke i * sqrt (tke i) / l). assert (HD : 0 <= D).
    { unfold D. apply div_nonneg; [|exact Pl]. apply Rmult_le_pos; [apply Rmult_le_pos; assumption|apply sqrt_pos]. }
    assert (HP : 0 <= limited ratio (prod2 n (G i) * mut i) D) by (apply limited_nonneg; [assumption|apply Rmult_le_pos; [apply prod2_nonneg|assumption]|assumption]).
    set (P := limited _ _ _) in *. replace 1.5 with (3/2) by lra. replace (3/2 * rho i / l * sqrt (tke i) * vol i * tke i + (P - D) * vol i) with ((P + D / 2) * vol i) by (unfold D; field; lra).
    apply Rmult_le_pos; lra.
Qed.
Lemma cpow_32 x : 0 <= x -> cpow x (3/2) = x * sqrt x.
Proof.
  intros H. unfold cpow. destruct Req_EM_T as [->|E]; [ring|]. assert (0 < x) by lra.
  replace (3/2) with (1 + /2) by field. rewrite Rpower_plus, Rpower_1, Rpower_sqrt by assumption. reflexivity.
Qed.
Lemma filter_pos n vol : 0 < vol -> 0 < filter_of n vol. Proof. apply cpow_pos. Qed.
(** high-Reynolds one-equation model (lr = 0) *)
Theorem C66_ksgs_k_stays_nonnegative N A n ratio (cEps rho tke mu mut dsq vol : nat -> R) (G : nat -> mat) b q' :
  mmatrix N A -> (forall i, (i < N)%nat -> 0 <= b i) -> 0 <= ratio ->
  (forall i, (i < N)%nat -> 0 <= cEps i /\ 0 <= rho i /\ 0 <= tke i /\ 0 <= mut i /\ 0 < vol i) ->
  let src i := src_ksgs n ratio 0 (cEps i) (rho i) (tke i) (mu i) (mut i) (dsq i) (vol i) (G i) in
  updated N A (fun i => fst (src i)) b (fun i => snd (src i)) tke q' -> forall i, (i < N)%nat -> 0 <= q' i.
Proof.
  intros HA Hb Hr H src U. eapply (update_nonneg N A _ b _ tke q' HA); [| exact Hb| |exact U].
  - intros i Hi. destruct (H i Hi) as (h0 & h1 & h2 & h4 & h5). unfold src, src_ksgs. cbv zeta. cbn [fst snd].
    pose proof (filter_pos n (vol i) h5). apply Rmult_le_pos; [|lra]. apply div_nonneg; [|assumption].
    apply Rmult_le_pos; [|apply sqrt_pos]. apply Rmult_le_pos; [|assumption]. apply Rmult_le_pos; [lra|assumption].
  - intros i Hi. destruct (H i Hi) as (h0 & h1 & h2 & h4 & h5). unfold src, src_ksgs. cbv zeta. cbn [fst snd].
    pose proof (filter_pos n (vol i) h5) as Pl. set (l := filter_of n (vol i)) in *. rewrite cpow_32 by assumption.
    set (D := cEps i * rho i * (tke i * sqrt (tke i)) / l + 0 * 2 * mu i * dsq i).
    assert (HD : 0 <= D).
    { unfold D. replace (0 * 2 * mu i * dsq i) with 0 by ring. rewrite Rplus_0_r.
      apply div_nonneg; [repeat apply Rmult_le_pos; try assumption; apply sqrt_pos|exact Pl]. }
    assert (HP : 0 <= limited ratio (prod2 n (G i) * mut i) D) by (apply limited_nonneg; [assumption|apply Rmult_le_pos; [apply prod2_nonneg|assumption]|assumption]).
    set (P := limited _ _ _) in *.
    replace 1.5 with (3/2) by lra. replace (3/2 * cEps i * rho i * sqrt (tke i) / l * vol i * tke i + (P - D) * vol i) with ((P + D / 2) * vol i) by (unfold D; field; lra).
    apply Rmult_le_pos; lra.
Qed.
(** the low-Reynolds form has a sink 2 mu |grad sqrt k|^2 with no matrix counterpart: a node with k = 0 between positive
    neighbours is driven negative (and only the clip in update_and_clip repairs it) *)
Theorem C66_low_re_ksgs_stays_nonnegative_refuted :
  exists ratio cEps rho mu mut dsq vol (g : mat), 0 <= ratio /\ 0 < cEps /\ 0 < rho /\ 0 < mu /\ 0 <= mut /\ 0 < dsq /\ 0 < vol /\
    let src := src_ksgs 3 ratio 1 cEps rho 0 mu mut dsq vol g in
    exists q', updated 1 (fun _ _ => 1) (fun _ => fst src) (fun _ => 0) (fun _ => snd src) (fun _ => 0) q' /\ q' 0%nat < 0.
Proof.
  exists 1, 1, 1, 1, 0, 1, 1, (fun _ _ => 0). repeat (split; [lra|]).
  cbv zeta. set (src := src_ksgs 3 1 1 1 1 0 1 0 1 1 (fun _ _ => 0)).
  assert (E : src = (0, -2)).
  { unfold src, src_ksgs. cbv zeta. rewrite cpow_32 by lra. rewrite sqrt_0.
    assert (0 < filter_of 3 1) by (apply filter_pos; lra).
    f_equal; [field; lra|]. rewrite C66_production_limited. rewrite Rmin_left; [|].
    - rewrite Rmult_0_r. field. lra.
    - rewrite Rmult_0_r. replace (1 * (1 * 1 * (0 * 0) / filter_of 3 1 + 1 * 2 * 1 * 1)) with 2 by (field; lra). lra. }
  rewrite E. cbn [fst snd]. exists (fun _ => -2). split; [|lra]. intros i Hi. rewrite !sumn_S, !sumn_0. lra.
Qed.
Lemma tiny_pos : 0 < tiny. Proof. unfold tiny. apply Rinv_0_lt_compat, pow_lt. lra. Qed.
Lemma prod_keps_nonneg n inc rho tke mut g : 0 <= prod_keps n inc rho tke mut g. Proof. apply Rmax_l. Qed.
Theorem C66_keps_k_and_epsilon_stay_nonnegative N A n ratio inc ce1 ce2 (rho tke eps mut vol : nat -> R) (G : nat -> mat) b q' :
  mmatrix N A -> (forall i, (i < N)%nat -> 0 <= b i) -> 0 <= ratio -> 0 <= ce1 -> 0 <= ce2 ->
  (forall i, (i < N)%nat -> 0 <= rho i /\ 0 <= eps i /\ 0 <= vol i) ->
  let srcK i := src_tke_keps n ratio inc (rho i) (tke i) (eps i) (mut i) (vol i) (G i) in
  let srcE i := src_eps_keps n ratio inc ce1 ce2 (rho i) (tke i) (eps i) (mut i) (vol i) (G i) in
  ((forall i, (i < N)%nat -> tiny <= tke i) -> updated N A (fun i => fst (srcK i)) b (fun i => snd (srcK i)) tke q' -> forall i, (i < N)%nat -> 0 <= q' i) /\
  (updated N A (fun i => fst (srcE i)) b (fun i => snd (srcE i)) eps q' -> forall i, (i < N)%nat -> 0 <= q' i).
Proof.
  intros HA Hb Hr H1 H2 H srcK srcE.
  assert (HK : forall i, 0 < Rmax tiny (tke i)) by (intros; eapply Rlt_le_trans; [apply tiny_pos|apply Rmax_l]).
  assert (HP : forall i, (i < N)%nat -> 0 <= limited ratio (prod_keps n inc (rho i) (tke i) (mut i) (G i)) (rho i * eps i)).
  { intros i Hi. destruct (H i Hi) as (h1 & h2 & h3). apply limited_nonneg; [assumption|apply prod_keps_nonneg|apply Rmult_le_pos; assumption]. }
  split; [intros Ht|]; intros U.
  - eapply (update_nonneg N A _ b _ tke q' HA); [| exact Hb| |exact U]; intros i Hi; destruct (H i Hi) as (h1 & h2 & h3); specialize (HK i); specialize (HP i Hi); unfold srcK, src_tke_keps; cbv zeta; cbn [fst snd].
    + apply Rmult_le_pos; [|assumption]. apply div_nonneg; [apply Rmult_le_pos; assumption|assumption].
    + set (P := limited _ _ _) in *. rewrite Rmax_right in * by (apply Ht; exact Hi).
      replace (rho i * eps i / tke i * vol i * tke i + (P - rho i * eps i) * vol i) with (P * vol i) by (field; lra).
      apply Rmult_le_pos; assumption.
  - eapply (update_nonneg N A _ b _ eps q' HA); [| exact Hb| |exact U]; intros i Hi; destruct (H i Hi) as (h1 & h2 & h3); specialize (HK i); specialize (HP i Hi); unfold srcE, src_eps_keps; cbv zeta; cbn [fst snd].
    + apply Rmult_le_pos; [|assumption]. apply div_nonneg; [repeat apply Rmult_le_pos; assumption|assumption].
    + set (P := limited _ _ _) in *. set (k := Rmax tiny (tke i)) in *.
      replace (ce2 * rho i * eps i / k * vol i * eps i + eps i / k * (ce1 * P - ce2 * (rho i * eps i)) * vol i) with (eps i * (ce1 * P) / k * vol i) by (field; lra).
      apply Rmult_le_pos; [|assumption]. apply div_nonneg; [repeat apply Rmult_le_pos; assumption|assumption].
Qed.
