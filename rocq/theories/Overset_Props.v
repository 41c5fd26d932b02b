(** C77: overset constraint rows *)
Require Import Reals List Bool Arith Lra Lia Permutation.
From Verif Require Import Edge_Model Edge_Proofs Overset_Model.
From Verif Require Sum_Proofs Tab_LU_Props Elem_Proofs Rad_Quad_Proofs3 Bnd_Props5 Prop_Props.
Import ListNotations.
Open Scope R_scope.
Notation sumn_zero := Elem_Proofs.sumn_zero.
Notation sumn_single := Rad_Quad_Proofs3.sumn_single.

(** ** small separate specification *)
(** interpolation of component [c] of a nodal field at the donor point of [o] *)
Definition at_donor (o : oinfo) (q : nat -> nat -> R) (c : nat) : R := sumn (o_npe o) (fun k => o_w o k * q (o_elem o k) c).
(** the info objects that contribute: those listed by the rank that owns the constraint node *)
Definition processed (ranks : list (list oinfo)) : list oinfo :=
  flat_map (fun r => filter (fun o => Nat.eqb r (o_owner o)) (nth r ranks [])) (seq 0 (length ranks)).
(** every constraint node is listed, exactly once, by its owner *)
Definition well_owned (ranks : list (list oinfo)) : Prop :=
  NoDup (map o_node (processed ranks)) /\ forall o, In o (concat ranks) -> In (o_node o) (map o_node (processed ranks)).
(** row (i, a) of the system holds for the increment x *)
Definition row_holds (nd : nat) (nodes : list nat) (s : osys) (x : nat -> nat -> R) (i a : nat) : Prop :=
  lsum (fun j => sumn nd (fun b => oA s i a j b * x j b)) nodes = oB s i a.

(** ** gathers *)
Lemma idx_inj (n i j k l : nat) : (j < n)%nat -> (l < n)%nat -> (i*n + j = k*n + l)%nat -> i = k /\ j = l.
Proof.
  intros Hj Hl E.
  pose proof (Nat.div_unique (i*n+j) n i j Hj ltac:(lia)) as A. pose proof (Nat.div_unique (k*n+l) n k l Hl ltac:(lia)) as B.
  rewrite E in A. assert (i = k) by congruence. clear A B. subst i. split; [reflexivity|lia].
Qed.
Lemma gather_dof_spec nd npe elem q i ni : (i < nd)%nat -> (ni < npe)%nat -> gather_dof nd npe elem q (i*npe + ni)%nat = q (elem ni) i.
Proof.
  intros Hi Hn. unfold gather_dof.
  assert (IN : forall m x (a : nat -> R) i' n', (m <= nd)%nat -> (x < npe)%nat -> (n' < npe)%nat ->
     fold_left (fun a i => set_at (i*npe + x) (q (elem x) i) a) (seq 0 m) a (i'*npe + n')%nat
       = if (Nat.eqb n' x && (i' <? m)%nat)%bool then q (elem x) i' else a (i'*npe + n')%nat).
  { induction m as [|m IH]; intros x a i' n' Hm Hx Hn'; [cbn; rewrite andb_false_r; reflexivity|].
    rewrite seq_S, fold_left_app. cbn [fold_left plus]. unfold set_at at 1.
    destruct (Nat.eqb_spec (i'*npe + n') (m*npe + x)) as [E|E].
    - apply idx_inj in E; [|assumption|assumption]. destruct E as [-> ->]. rewrite Nat.eqb_refl. destruct (Nat.ltb_spec m (S m)); [reflexivity|lia].
    - rewrite IH by lia. destruct (Nat.eqb_spec n' x) as [->|]; cbn [andb]; [|reflexivity].
      destruct (Nat.ltb_spec i' m), (Nat.ltb_spec i' (S m)); try reflexivity; try lia. assert (i' = m) by lia. subst. contradiction. }
  assert (OUT : forall m (a : nat -> R), (m <= npe)%nat ->
     fold_left (fun a ni => fold_left (fun a i => set_at (i*npe + ni) (q (elem ni) i) a) (seq 0 nd) a) (seq 0 m) a (i*npe+ni)%nat
       = if (ni <? m)%nat then q (elem ni) i else a (i*npe+ni)%nat).
  { induction m as [|m IH]; intros a Hm; [reflexivity|]. rewrite seq_S, fold_left_app. cbn [fold_left plus]. rewrite IN by lia. rewrite IH by lia.
    destruct (Nat.eqb_spec ni m) as [->|]; cbn [andb].
    - destruct (Nat.ltb_spec i nd), (Nat.ltb_spec m (S m)); try reflexivity; lia.
    - destruct (Nat.ltb_spec ni m), (Nat.ltb_spec ni (S m)); try reflexivity; lia. }
  rewrite OUT by lia. destruct (Nat.ltb_spec ni npe); [reflexivity|lia].
Qed.
Lemma interp_gather nd o q i : (i < nd)%nat -> interpolate_point (o_npe o) (o_w o) (gather_dof nd (o_npe o) (o_elem o) q) i = at_donor o q i.
Proof. intros Hi. unfold interpolate_point, at_donor. apply sumn_ext. intros k Hk. rewrite gather_dof_spec by assumption. reflexivity. Qed.

(** ** the local matrix *)
Definition coef (s : R) (w : nat -> R) (a : nat) : R := match a with O => s | S k => - (w k * s) end.
Lemma overset_local_spec nd npe s w qn qc :
  (forall i a b, (a <= npe)%nat -> (b < nd)%nat ->
     fst (overset_local nd npe s w qn qc) (i*((npe+1)*nd) + (a*nd + b))%nat = if ((i <? nd)%nat && Nat.eqb b i)%bool then coef s w a else 0) /\
  (forall i, snd (overset_local nd npe s w qn qc) i = if (i <? nd)%nat then - (qn i - qc i) * s else 0).
Proof.
  assert (INJ : forall i a b i' a' b', (a <= npe)%nat -> (b < nd)%nat -> (a' <= npe)%nat -> (b' < nd)%nat ->
     (i*((npe+1)*nd) + (a*nd + b) = i'*((npe+1)*nd) + (a'*nd + b'))%nat -> i = i' /\ a = a' /\ b = b').
  { intros i a b i' a' b' Ha Hb Ha' Hb' E. apply idx_inj in E; [|nia|nia]. destruct E as [-> E]. apply idx_inj in E; [|assumption|assumption]. tauto. }
  assert (INN : forall m i (A : nat -> R) i' a b, (m <= npe)%nat -> (i < nd)%nat -> (a <= npe)%nat -> (b < nd)%nat ->
     fold_left (fun a ic => let k := (i * (npe+1) * nd + (i + nd*(ic+1)))%nat in set_at k (a k - w ic * s) a) (seq 0 m) A (i'*((npe+1)*nd) + (a*nd + b))%nat
       = A (i'*((npe+1)*nd) + (a*nd + b))%nat - (if (Nat.eqb i' i && Nat.eqb b i && (1 <=? a)%nat && (a <=? m)%nat)%bool then w (a-1)%nat * s else 0)).
  { induction m as [|m IH]; intros i A i' a b Hm Hi Ha Hb.
    - cbn [seq fold_left]. destruct (Nat.leb_spec 1 a), (Nat.leb_spec a 0); try lia; rewrite ?andb_false_r; cbn [andb]; cbv iota; ring.
    - rewrite seq_S, fold_left_app. cbn [fold_left plus]. cbv zeta. unfold set_at at 1.
      replace (i*(npe+1)*nd + (i + nd*(m+1)))%nat with (i*((npe+1)*nd) + ((m+1)*nd + i))%nat by ring.
      destruct (Nat.eqb_spec (i'*((npe+1)*nd) + (a*nd + b)) (i*((npe+1)*nd) + ((m+1)*nd + i))) as [E|E].
      + apply INJ in E; [|lia|lia|lia|lia]. destruct E as (-> & -> & ->). rewrite IH by lia. rewrite !Nat.eqb_refl. cbn [andb].
        destruct (Nat.leb_spec 1 (m+1)), (Nat.leb_spec (m+1) m), (Nat.leb_spec (m+1) (S m)); try lia. cbn [andb]. replace (m+1-1)%nat with m by lia. ring.
      + rewrite IH by lia. f_equal. f_equal. destruct (Nat.eqb_spec i' i) as [->|]; cbn [andb]; [|reflexivity].
        destruct (Nat.eqb_spec b i) as [->|]; cbn [andb]; [|reflexivity]. destruct (Nat.leb_spec 1 a); cbn [andb]; [|reflexivity].
        destruct (Nat.leb_spec a m), (Nat.leb_spec a (S m)); try reflexivity; try lia. exfalso. apply E. assert (a = (m+1)%nat) by lia. subst. reflexivity. }
  unfold overset_local.
  assert (G : forall m, (m <= nd)%nat ->
    let lr := fold_left (fun lr i =>
    let rowOi := (i * (npe+1) * nd)%nat in
    let rhs := set_at i (- (qn i - qc i) * s) (snd lr) in
    let lhs := set_at (rowOi + i) (fst lr (rowOi + i)%nat + 1*s) (fst lr) in
    let lhs := fold_left (fun a ic => let k := (rowOi + (i + nd*(ic+1)))%nat in set_at k (a k - w ic * s) a) (seq 0 npe) lhs in
    (lhs, rhs)) (seq 0 m) ((fun _ => 0) : nat -> R, (fun _ => 0) : nat -> R) in
    (forall i a b, (a <= npe)%nat -> (b < nd)%nat -> fst lr (i*((npe+1)*nd) + (a*nd + b))%nat = if ((i <? m)%nat && Nat.eqb b i)%bool then coef s w a else 0) /\
    (forall i, snd lr i = if (i <? m)%nat then - (qn i - qc i) * s else 0)).
  { induction m as [|m IH]; intros Hm; [split; intros; reflexivity|]. rewrite seq_S, fold_left_app. cbn [fold_left plus].
    cbv zeta in IH |- *. destruct (IH ltac:(lia)) as [I1 I2]. clear IH. cbn [fst snd].
    match goal with |- context [snd ?x] => set (lr := x) in * end.
    split.
    - intros i a b Ha Hb. rewrite INN by lia. unfold set_at.
      replace (m*(npe+1)*nd + m)%nat with (m*((npe+1)*nd) + (0*nd + m))%nat by ring.
      rewrite (I1 m 0%nat m) by lia. destruct (Nat.eqb_spec (i*((npe+1)*nd) + (a*nd + b)) (m*((npe+1)*nd) + (0*nd + m))) as [E|E].
      + apply INJ in E; [|lia|lia|lia|lia]. destruct E as (-> & -> & ->). rewrite Nat.eqb_refl. destruct (Nat.ltb_spec m m); [lia|]. destruct (Nat.ltb_spec m (S m)); [|lia]. cbn. ring.
      + rewrite (I1 i a b) by lia. destruct (Nat.eqb_spec i m) as [->|Ni]; cbn [andb].
        * destruct (Nat.ltb_spec m m); [lia|]. destruct (Nat.ltb_spec m (S m)); [|lia]. cbn [andb]. destruct (Nat.eqb_spec b m) as [->|]; cbn [andb]; [|ring].
          destruct a as [|a]; [exfalso; apply E; reflexivity|]. cbn [coef]. replace (S a - 1)%nat with a by lia. destruct (Nat.leb_spec 1 (S a)), (Nat.leb_spec (S a) npe); try lia. cbn [andb]. ring.
        * destruct (Nat.ltb_spec i m), (Nat.ltb_spec i (S m)); try lia; cbn [andb]; ring.
    - intros i. unfold set_at. destruct (Nat.eqb_spec i m) as [->|N]; [destruct (Nat.ltb_spec m (S m)); [reflexivity|lia]|]. rewrite I2.
      destruct (Nat.ltb_spec i m), (Nat.ltb_spec i (S m)); try reflexivity; lia. }
  exact (G nd (Nat.le_refl _)).
Qed.

(** ** assembly of one info *)
Lemma apply_coeff_A nd m conn lhs rhs s i a j b : oA (apply_coeff nd m conn lhs rhs s) i a j b = oA s i a j b +
  sumn (m*nd) (fun r => sumn (m*nd) (fun c => if (Nat.eqb i (conn (r / nd)%nat) && Nat.eqb a (r mod nd)%nat && Nat.eqb j (conn (c / nd)%nat) && Nat.eqb b (c mod nd)%nat)%bool then lhs (r*(m*nd) + c)%nat else 0)).
Proof.
  unfold apply_coeff. cbv zeta. generalize (m*nd)%nat as M. intros M.
  assert (G : forall K s0, oA (fold_left (fun s r =>
    let s1 := fold_left (fun s c => mkOS (fun i a j b => oA s i a j b +
        (if (Nat.eqb i (conn (r / nd)%nat) && Nat.eqb a (r mod nd)%nat && Nat.eqb j (conn (c / nd)%nat) && Nat.eqb b (c mod nd)%nat)%bool then lhs (r*M + c)%nat else 0)) (oB s)) (seq 0 M) s in
    mkOS (oA s1) (fun i a => oB s1 i a + (if (Nat.eqb i (conn (r / nd)%nat) && Nat.eqb a (r mod nd)%nat)%bool then rhs r else 0))) (seq 0 K) s0) i a j b
    = oA s0 i a j b + sumn K (fun r => sumn M (fun c => if (Nat.eqb i (conn (r / nd)%nat) && Nat.eqb a (r mod nd)%nat && Nat.eqb j (conn (c / nd)%nat) && Nat.eqb b (c mod nd)%nat)%bool then lhs (r*M + c)%nat else 0))).
  { assert (H : forall K r s0, oA (fold_left (fun s c => mkOS (fun i a j b => oA s i a j b +
        (if (Nat.eqb i (conn (r / nd)%nat) && Nat.eqb a (r mod nd)%nat && Nat.eqb j (conn (c / nd)%nat) && Nat.eqb b (c mod nd)%nat)%bool then lhs (r*M + c)%nat else 0)) (oB s)) (seq 0 K) s0) i a j b
      = oA s0 i a j b + sumn K (fun c => if (Nat.eqb i (conn (r / nd)%nat) && Nat.eqb a (r mod nd)%nat && Nat.eqb j (conn (c / nd)%nat) && Nat.eqb b (c mod nd)%nat)%bool then lhs (r*M + c)%nat else 0)).
    { induction K as [|K IH]; intros r s0; [rewrite sumn_0; cbn; ring|]. rewrite seq_S, fold_left_app, sumn_S. cbn [fold_left plus]. cbn [oA]. rewrite IH. ring. }
    induction K as [|K IH]; intros s0; [rewrite sumn_0; cbn; ring|]. rewrite seq_S, fold_left_app, sumn_S. cbn [fold_left plus]. cbv zeta. cbn [oA]. rewrite H, IH. ring. }
  apply G.
Qed.
Lemma apply_coeff_B nd m conn lhs rhs s i a : oB (apply_coeff nd m conn lhs rhs s) i a = oB s i a +
  sumn (m*nd) (fun r => if (Nat.eqb i (conn (r / nd)%nat) && Nat.eqb a (r mod nd)%nat)%bool then rhs r else 0).
Proof.
  unfold apply_coeff. cbv zeta. generalize (m*nd)%nat as M. intros M.
  assert (H : forall K r s0, oB (fold_left (fun s c => mkOS (fun i a j b => oA s i a j b +
        (if (Nat.eqb i (conn (r / nd)%nat) && Nat.eqb a (r mod nd)%nat && Nat.eqb j (conn (c / nd)%nat) && Nat.eqb b (c mod nd)%nat)%bool then lhs (r*M + c)%nat else 0)) (oB s)) (seq 0 K) s0) = oB s0).
  { induction K as [|K IH]; intros r s0; [reflexivity|]. rewrite seq_S, fold_left_app. cbn [fold_left plus]. cbn [oB]. apply IH. }
  assert (G : forall K s0, oB (fold_left (fun s r =>
    let s1 := fold_left (fun s c => mkOS (fun i a j b => oA s i a j b +
        (if (Nat.eqb i (conn (r / nd)%nat) && Nat.eqb a (r mod nd)%nat && Nat.eqb j (conn (c / nd)%nat) && Nat.eqb b (c mod nd)%nat)%bool then lhs (r*M + c)%nat else 0)) (oB s)) (seq 0 M) s in
    mkOS (oA s1) (fun i a => oB s1 i a + (if (Nat.eqb i (conn (r / nd)%nat) && Nat.eqb a (r mod nd)%nat)%bool then rhs r else 0))) (seq 0 K) s0) i a
    = oB s0 i a + sumn K (fun r => if (Nat.eqb i (conn (r / nd)%nat) && Nat.eqb a (r mod nd)%nat)%bool then rhs r else 0)).
  { induction K as [|K IH]; intros s0; [rewrite sumn_0; cbn; ring|]. rewrite seq_S, fold_left_app, sumn_S. cbn [fold_left plus]. cbv zeta. cbn [oB]. rewrite H, IH. ring. }
  apply G.
Qed.
Lemma div_flat a b d : (b < d)%nat -> ((a*d + b)/d = a)%nat /\ ((a*d+b) mod d = b)%nat.
Proof. intros H. split; [symmetry; apply (Nat.div_unique _ d a b H); lia|symmetry; apply (Nat.mod_unique _ d a b H); lia]. Qed.
Lemma sumn_ind n k f : sumn n (fun b => if Nat.eqb k b then f b else 0) = if (k <? n)%nat then f k else 0.
Proof.
  induction n as [|n IH]; [reflexivity|]. rewrite sumn_S, IH. destruct (Nat.eqb_spec k n) as [->|].
  - destruct (Nat.ltb_spec n n), (Nat.ltb_spec n (S n)); try lia. ring.
  - destruct (Nat.ltb_spec k n), (Nat.ltb_spec k (S n)); try lia; ring.
Qed.

Definition scaling nDim scaleFac rho dnv (o : oinfo) := system_scaling nDim scaleFac (o_npe o) (o_elem o) rho dnv.
(** what one info adds to the system *)
Lemma overset_info_eff nDim nd sf rho dnv q rank s o : (0 < nd)%nat -> rank = o_owner o ->
  (forall i a j b, oA (overset_info nDim nd sf rho dnv q rank s o) i a j b = oA s i a j b +
     if (Nat.eqb i (o_node o) && (a <? nd)%nat && Nat.eqb b a)%bool
     then scaling nDim sf rho dnv o * ((if Nat.eqb j (o_node o) then 1 else 0) - sumn (o_npe o) (fun k => if Nat.eqb j (o_elem o k) then o_w o k else 0)) else 0) /\
  (forall i a, oB (overset_info nDim nd sf rho dnv q rank s o) i a = oB s i a +
     if (Nat.eqb i (o_node o) && (a <? nd)%nat)%bool then - (q (o_node o) a - at_donor o q a) * scaling nDim sf rho dnv o else 0).
Proof.
  intros Hnd ->. unfold overset_info. rewrite Nat.eqb_refl. cbv zeta. fold (scaling nDim sf rho dnv o). set (sc := scaling nDim sf rho dnv o).
  set (qc := interpolate_point _ _ _). destruct (overset_local_spec nd (o_npe o) sc (o_w o) (q (o_node o)) qc) as [L1 L2].
  set (lr := overset_local _ _ _ _ _ _) in *. set (conn := fun k => match k with 0%nat => o_node o | S k => o_elem o k end).
  split.
  - intros i a j b. rewrite apply_coeff_A. f_equal.
    set (W := ((o_npe o + 1)*nd)%nat) in *.
    rewrite (sumn_ext W _ (fun r => if (Nat.eqb i (conn (r/nd)%nat) && Nat.eqb a (r mod nd)%nat && (r <? nd)%nat)%bool then
        sumn W (fun c => if (Nat.eqb j (conn (c/nd)%nat) && Nat.eqb b (c mod nd)%nat && Nat.eqb b r)%bool then coef sc (o_w o) (c/nd)%nat else 0) else 0)).
    2:{ intros r Hr. destruct (Nat.eqb i (conn (r/nd)%nat) && Nat.eqb a (r mod nd)%nat)%bool; cbn [andb].
        2:{ apply sumn_zero. reflexivity. }
        assert (Q : forall c, (c < W)%nat -> fst lr (r*W + c)%nat = if ((r <? nd)%nat && Nat.eqb (c mod nd)%nat r)%bool then coef sc (o_w o) (c/nd)%nat else 0).
        { intros c Hc. pose proof (Nat.div_mod_eq c nd) as E. pose proof (Nat.mod_upper_bound c nd ltac:(lia)) as B.
          assert ((c/nd)%nat <= o_npe o)%nat by (apply Nat.lt_succ_r; apply Nat.div_lt_upper_bound; [lia|unfold W in Hc; nia]).
          rewrite E at 1. rewrite (Nat.mul_comm nd). apply L1; assumption. }
        destruct (r <? nd)%nat; cbn [andb] in Q.
        - apply sumn_ext. intros c Hc. destruct (Nat.eqb j (conn (c/nd)%nat)); cbn [andb]; [|reflexivity].
          destruct (Nat.eqb_spec b (c mod nd)%nat) as [->|]; cbn [andb]; [|reflexivity]. apply Q, Hc.
        - apply sumn_zero. intros c Hc. rewrite (Q c Hc). destruct (_ && _)%bool; reflexivity. }
    unfold W. rewrite Elem_Proofs.sumn_flat. rewrite Nat.add_1_r. rewrite Rad_Quad_Proofs3.sumn_shift.
    rewrite (sumn_zero (o_npe o)).
    2:{ intros k Hk. apply sumn_zero. intros d Hd. destruct (Nat.ltb_spec (S k * nd + d) nd); [nia|]. rewrite andb_false_r. reflexivity. }
    rewrite Rplus_0_r.
    rewrite (sumn_ext nd _ (fun d => if Nat.eqb a d then (if (Nat.eqb i (o_node o) && Nat.eqb b d)%bool then
        sc * ((if Nat.eqb j (o_node o) then 1 else 0) - sumn (o_npe o) (fun k => if Nat.eqb j (o_elem o k) then o_w o k else 0)) else 0) else 0)).
    2:{ intros d Hd. cbn [Nat.mul Nat.add]. destruct (div_flat 0 d nd Hd) as [D1 D2]. cbn [Nat.mul Nat.add] in D1, D2. rewrite D1, D2. cbn [conn].
        destruct (Nat.ltb_spec d nd); [|lia]. rewrite andb_true_r. destruct (Nat.eqb_spec a d) as [->|]; [|rewrite andb_false_r; reflexivity]. rewrite andb_true_r.
        destruct (Nat.eqb i (o_node o)); cbn [andb]; [|reflexivity].
        change (nd + o_npe o * nd)%nat with (S (o_npe o) * nd)%nat. rewrite Elem_Proofs.sumn_flat.
        rewrite (sumn_ext (S (o_npe o)) _ (fun k => if (Nat.eqb j (conn k) && Nat.eqb b d)%bool then coef sc (o_w o) k else 0)).
        2:{ intros k Hk. rewrite (sumn_ext nd _ (fun e => if Nat.eqb b e then (if (Nat.eqb j (conn k) && Nat.eqb b d)%bool then coef sc (o_w o) k else 0) else 0)).
            - rewrite sumn_ind. destruct (Nat.eqb_spec b d) as [->|]; [destruct (Nat.ltb_spec d nd); [reflexivity|lia]|rewrite andb_false_r; destruct (b <? nd)%nat; reflexivity].
            - intros e He. destruct (div_flat k e nd He) as [E1 E2]. rewrite E1, E2. destruct (Nat.eqb b e); [rewrite andb_true_r; reflexivity|rewrite andb_false_r; reflexivity]. }
        destruct (Nat.eqb b d); [|rewrite sumn_zero; [reflexivity|intros; rewrite andb_false_r; reflexivity]].
        rewrite Rad_Quad_Proofs3.sumn_shift. cbn [conn coef].
        rewrite (sumn_ext (o_npe o) (fun k => if (Nat.eqb j (o_elem o k) && true)%bool then - (o_w o k * sc) else 0) (fun k => (- sc) * (if Nat.eqb j (o_elem o k) then o_w o k else 0))).
        2:{ intros k Hk. destruct (Nat.eqb j (o_elem o k)); cbn [andb]; ring. }
        rewrite sumn_scal. destruct (Nat.eqb j (o_node o)); cbn [andb]; ring. }
    rewrite sumn_ind. destruct (Nat.eqb i (o_node o)); cbn [andb]; [|destruct (a <? nd)%nat; reflexivity]. destruct (a <? nd)%nat; cbn [andb]; reflexivity.
  - intros i a. rewrite apply_coeff_B. f_equal. rewrite Elem_Proofs.sumn_flat. rewrite Nat.add_1_r. rewrite Rad_Quad_Proofs3.sumn_shift.
    rewrite (sumn_zero (o_npe o)).
    2:{ intros k Hk. apply sumn_zero. intros d Hd. rewrite L2. destruct (Nat.ltb_spec (S k * nd + d) nd); [nia|]. destruct (_ && _)%bool; reflexivity. }
    rewrite Rplus_0_r.
    rewrite (sumn_ext nd _ (fun d => if Nat.eqb a d then (if Nat.eqb i (o_node o) then - (q (o_node o) d - at_donor o q d) * sc else 0) else 0)).
    + rewrite sumn_ind. destruct (Nat.eqb i (o_node o)), (a <? nd)%nat; reflexivity.
    + intros d Hd. cbn [Nat.mul Nat.add]. destruct (div_flat 0 d nd Hd) as [D1 D2]. cbn [Nat.mul Nat.add] in D1, D2. rewrite D1, D2. cbn [conn]. rewrite L2.
      destruct (Nat.ltb_spec d nd); [|lia]. unfold qc. rewrite interp_gather by exact Hd. destruct (Nat.eqb i (o_node o)), (Nat.eqb a d); reflexivity.
Qed.
Lemma overset_info_skip nDim nd sf rho dnv q rank s o : rank <> o_owner o -> overset_info nDim nd sf rho dnv q rank s o = s.
Proof. intros N. unfold overset_info. destruct (Nat.eqb_spec rank (o_owner o)); [contradiction|reflexivity]. Qed.

(** ** all infos on all ranks *)
Lemma prepare_spec nd infos : forall s i a,
  let s' := prepare_constraints nd infos s in
  (In i (map o_node infos) /\ (a < nd)%nat -> (forall j b, oA s' i a j b = 0) /\ oB s' i a = 0) /\
  (~ (In i (map o_node infos) /\ (a < nd)%nat) -> (forall j b, oA s' i a j b = oA s i a j b) /\ oB s' i a = oB s i a).
Proof.
  assert (G : forall o m s i a, let s' := fold_left (fun s d =>
     mkOS (fun i a j b => if (Nat.eqb i (o_node o) && Nat.eqb a d)%bool then 0 else oA s i a j b)
          (fun i a => if (Nat.eqb i (o_node o) && Nat.eqb a d)%bool then 0 else oB s i a)) (seq 0 m) s in
     (forall j b, oA s' i a j b = if (Nat.eqb i (o_node o) && (a <? m)%nat)%bool then 0 else oA s i a j b) /\
     oB s' i a = if (Nat.eqb i (o_node o) && (a <? m)%nat)%bool then 0 else oB s i a).
  { intros o. induction m as [|m IH]; intros s i a; cbv zeta; [cbn; rewrite andb_false_r; auto|]. rewrite seq_S, fold_left_app. cbn [fold_left plus]. cbn [oA oB].
    destruct (IH s i a) as [I1 I2]. split; [intros j b; rewrite I1|rewrite I2]; destruct (Nat.eqb i (o_node o)); cbn [andb]; try reflexivity;
      destruct (Nat.eqb_spec a m), (Nat.ltb_spec a m), (Nat.ltb_spec a (S m)); try reflexivity; lia. }
  unfold prepare_constraints. induction infos as [|o l IH]; intros s i a; cbv zeta.
  - cbn. split; [intros [[] _]|auto].
  - cbn [fold_left]. cbv zeta in IH, G. destruct (G o nd s i a) as [G1 G2]. set (s1 := fold_left _ (seq 0 nd) s) in *.
    destruct (IH s1 i a) as [I1 I2]. set (s' := fold_left _ l s1) in *. cbn [map In]. split.
    + intros [[E|Hin] Ha]; [|apply I1; auto]. destruct (in_dec Nat.eq_dec i (map o_node l)) as [Hin|Hni]; [apply I1; auto|].
      destruct I2 as [I2 I3]; [tauto|]. subst i. rewrite Nat.eqb_refl in G1, G2. destruct (Nat.ltb_spec a nd); [|lia]. cbn [andb] in G1, G2.
      split; [intros j b; rewrite I2; apply G1|rewrite I3; exact G2].
    + intros N. destruct I2 as [I2 I3]; [tauto|]. assert (Z : (Nat.eqb i (o_node o) && (a <? nd)%nat)%bool = false).
      { destruct (Nat.eqb_spec i (o_node o)); [|reflexivity]. destruct (Nat.ltb_spec a nd); [exfalso; apply N; auto|reflexivity]. }
      rewrite Z in G1, G2. split; [intros j b; rewrite I2; apply G1|rewrite I3; exact G2].
Qed.
Section Exec.
Variables (nDim nd : nat) (sf : R) (rho dnv : nat -> R) (q : nat -> nat -> R).
Hypothesis Hnd : (0 < nd)%nat.
Definition cA (o : oinfo) (i a j b : nat) : R := if (Nat.eqb i (o_node o) && (a <? nd)%nat && Nat.eqb b a)%bool
     then scaling nDim sf rho dnv o * ((if Nat.eqb j (o_node o) then 1 else 0) - sumn (o_npe o) (fun k => if Nat.eqb j (o_elem o k) then o_w o k else 0)) else 0.
Definition cB (o : oinfo) (i a : nat) : R := if (Nat.eqb i (o_node o) && (a <? nd)%nat)%bool then - (q (o_node o) a - at_donor o q a) * scaling nDim sf rho dnv o else 0.
Lemma exec_eff ranks s :
  (forall i a j b, oA (overset_execute nDim nd sf rho dnv q ranks s) i a j b
     = oA (prepare_constraints nd (concat ranks) s) i a j b + lsum (fun o => cA o i a j b) (processed ranks)) /\
  (forall i a, oB (overset_execute nDim nd sf rho dnv q ranks s) i a = oB (prepare_constraints nd (concat ranks) s) i a + lsum (fun o => cB o i a) (processed ranks)).
Proof.
  unfold overset_execute, processed. cbv zeta. generalize (prepare_constraints nd (concat ranks) s) as s0. generalize (seq 0 (length ranks)) as L.
  assert (IN : forall r l s0, let s1 := fold_left (overset_info nDim nd sf rho dnv q r) l s0 in
    (forall i a j b, oA s1 i a j b = oA s0 i a j b + lsum (fun o => cA o i a j b) (filter (fun o => Nat.eqb r (o_owner o)) l)) /\
    (forall i a, oB s1 i a = oB s0 i a + lsum (fun o => cB o i a) (filter (fun o => Nat.eqb r (o_owner o)) l))).
  { intros r. induction l as [|o l IH]; intros s0; cbv zeta; [cbn; split; intros; unfold lsum; cbn; ring|]. cbn [fold_left filter].
    destruct (IH (overset_info nDim nd sf rho dnv q r s0 o)) as [I1 I2]. destruct (Nat.eqb_spec r (o_owner o)) as [E|N].
    - destruct (overset_info_eff nDim nd sf rho dnv q r s0 o Hnd E) as [E1 E2]. split.
      + intros i a j b. rewrite Sum_Proofs.lsum_cons, I1, E1. unfold cA at 2. ring.
      + intros i a. rewrite Sum_Proofs.lsum_cons, I2, E2. unfold cB at 2. ring.
    - rewrite overset_info_skip in I1, I2 |- * by exact N. split; assumption. }
  induction L as [|r L IH]; intros s0; [cbn; split; intros; unfold lsum; cbn; ring|]. cbn [fold_left flat_map].
  destruct (IN r (nth r ranks []) s0) as [A1 B1]. set (s1 := fold_left (overset_info _ _ _ _ _ _ r) _ s0) in *. destruct (IH s1) as [A2 B2]. split.
  - intros i a j b. rewrite A2, A1, Rad_Quad_Proofs3.lsum_app2. ring.
  - intros i a. rewrite B2, B1, Rad_Quad_Proofs3.lsum_app2. ring.
Qed.
Lemma in_processed o ranks : In o (processed ranks) -> In o (concat ranks).
Proof.
  intros H. unfold processed in H. apply in_flat_map in H. destruct H as (r & Hr & H). apply filter_In in H. apply in_concat. exists (nth r ranks []).
  split; [apply nth_In; apply in_seq in Hr; lia|tauto].
Qed.
Lemma lsum_pick (f : oinfo -> R) (l : list oinfo) (o : oinfo) : NoDup (map o_node l) -> In o l -> (forall o', In o' l -> o_node o' <> o_node o -> f o' = 0) -> lsum f l = f o.
Proof.
  induction l as [|x l IH]; intros ND Hi Z; [destruct Hi|]. cbn [map] in ND. inversion ND as [|? ? N1 N2]; subst. rewrite Sum_Proofs.lsum_cons.
  destruct Hi as [->|Hi].
  - rewrite lsum_zero; [ring|]. intros o' Ho'. apply Z; [now right|]. intros E. apply N1. rewrite <- E. apply in_map, Ho'.
  - rewrite (IH N2 Hi) by (intros; apply Z; [now right|assumption]). rewrite (Z x); [ring|now left|]. intros E. apply N1. rewrite E. apply in_map, Hi.
Qed.

(** Rows that do not belong to a constraint node are left alone ... *)
Theorem C77_other_rows_unchanged ranks s i a : ~ In i (map o_node (concat ranks)) ->
  (forall j b, oA (overset_execute nDim nd sf rho dnv q ranks s) i a j b = oA s i a j b) /\ oB (overset_execute nDim nd sf rho dnv q ranks s) i a = oB s i a.
Proof.
  intros N. destruct (exec_eff ranks s) as [A B]. destruct (prepare_spec nd (concat ranks) s i a) as [_ P]. destruct P as [P1 P2]; [tauto|].
  assert (Z : forall o, In o (processed ranks) -> Nat.eqb i (o_node o) = false) by (intros o Ho; apply Nat.eqb_neq; intros ->; apply N; apply in_map, in_processed, Ho).
  split; [intros j b; rewrite A, P1|rewrite B, P2]; (rewrite lsum_zero; [ring|]); intros o Ho; unfold cA, cB; rewrite (Z o Ho); reflexivity.
Qed.
(** ... and those of a constraint node no longer contain anything that was assembled before: every solution of the row makes
    the new value at the node, in each component, the interpolation of the new values of the donor nodes. *)
Theorem C77_fringe_value_is_interpolated ranks s nodes x o a : well_owned ranks -> In o (processed ranks) -> (a < nd)%nat ->
  scaling nDim sf rho dnv o <> 0 -> NoDup nodes -> In (o_node o) nodes -> (forall k, (k < o_npe o)%nat -> In (o_elem o k) nodes) ->
  row_holds nd nodes (overset_execute nDim nd sf rho dnv q ranks s) x (o_node o) a <->
  q (o_node o) a + x (o_node o) a = at_donor o (fun i c => q i c + x i c) a.
Proof.
  intros [W1 W2] Ho Ha Hs ND Hn He. unfold row_holds. destruct (exec_eff ranks s) as [A B].
  destruct (prepare_spec nd (concat ranks) s (o_node o) a) as [P _]. destruct P as [P1 P2]; [split; [apply in_map, in_processed, Ho|exact Ha]|].
  assert (EB : oB (overset_execute nDim nd sf rho dnv q ranks s) (o_node o) a = - (q (o_node o) a - at_donor o q a) * scaling nDim sf rho dnv o).
  { rewrite B, P2. rewrite (lsum_pick (fun o' => cB o' (o_node o) a) _ o W1 Ho).
    - unfold cB. rewrite Nat.eqb_refl. destruct (Nat.ltb_spec a nd); [cbn [andb]; ring|lia].
    - intros o' _ N. unfold cB. destruct (Nat.eqb_spec (o_node o) (o_node o')); [congruence|reflexivity]. }
  assert (EA : forall j b, oA (overset_execute nDim nd sf rho dnv q ranks s) (o_node o) a j b = if Nat.eqb a b then
      scaling nDim sf rho dnv o * ((if Nat.eqb j (o_node o) then 1 else 0) - sumn (o_npe o) (fun k => if Nat.eqb j (o_elem o k) then o_w o k else 0)) else 0).
  { intros j b. rewrite A, P1. rewrite (lsum_pick (fun o' => cA o' (o_node o) a j b) _ o W1 Ho).
    - unfold cA. rewrite Nat.eqb_refl. destruct (Nat.ltb_spec a nd); [|lia]. cbn [andb]. rewrite (Nat.eqb_sym b a). destruct (Nat.eqb a b); ring.
    - intros o' _ N. unfold cA. destruct (Nat.eqb_spec (o_node o) (o_node o')); [congruence|reflexivity]. }
  set (sc := scaling nDim sf rho dnv o) in *.
  assert (ML : lsum (fun j => sumn nd (fun b => oA (overset_execute nDim nd sf rho dnv q ranks s) (o_node o) a j b * x j b)) nodes = sc * (x (o_node o) a - at_donor o x a)).
  { rewrite (lsum_ext _ (fun j => sc * (if Nat.eqb (o_node o) j then x (o_node o) a else 0) + (- sc) * sumn (o_npe o) (fun k => if Nat.eqb (o_elem o k) j then o_w o k * x (o_elem o k) a else 0))).
    - rewrite lsum_plus, !lsum_scal, lsum_indicator by assumption. rewrite Bnd_Props5.lsum_sumn_swap.
      rewrite (sumn_ext _ _ (fun k => o_w o k * x (o_elem o k) a)). { unfold at_donor. ring. }
      intros k Hk. apply lsum_indicator; auto.
    - intros j _. rewrite (sumn_ext nd _ (fun b => if Nat.eqb a b then sc * ((if Nat.eqb j (o_node o) then 1 else 0) - sumn (o_npe o) (fun k => if Nat.eqb j (o_elem o k) then o_w o k else 0)) * x j b else 0)).
      2:{ intros b _. rewrite EA. destruct (Nat.eqb a b); ring. }
      rewrite sumn_ind. destruct (Nat.ltb_spec a nd); [|lia].
      rewrite (sumn_ext _ (fun k => if Nat.eqb (o_elem o k) j then o_w o k * x (o_elem o k) a else 0) (fun k => x j a * (if Nat.eqb j (o_elem o k) then o_w o k else 0))).
      2:{ intros k _. rewrite (Nat.eqb_sym j). destruct (Nat.eqb_spec (o_elem o k) j) as [->|]; ring. }
      rewrite sumn_scal. rewrite (Nat.eqb_sym j). destruct (Nat.eqb_spec (o_node o) j) as [->|]; ring. }
  rewrite ML, EB. unfold at_donor at 3. rewrite (sumn_ext _ _ (fun k => o_w o k * q (o_elem o k) a + o_w o k * x (o_elem o k) a)) by (intros; ring).
  rewrite sumn_plus. fold (at_donor o q a). fold (at_donor o x a). split.
  - intros E. assert (sc * ((q (o_node o) a + x (o_node o) a) - (at_donor o q a + at_donor o x a)) = 0) by lra. apply Rmult_integral in H. destruct H; [contradiction|lra].
  - intros E. replace (x (o_node o) a) with (at_donor o q a + at_donor o x a - q (o_node o) a) by lra. ring.
Qed.
End Exec.

(** The scaling never vanishes for physical donors: with positive densities, whatever the scaling factor in [0,1]. *)
Theorem C77_scaling_positive nDim sf rho dnv o : 0 <= sf <= 1 -> (0 < o_npe o)%nat ->
  (forall k, (k < o_npe o)%nat -> 0 < rho (o_elem o k)) -> 0 < scaling nDim sf rho dnv o.
Proof.
  intros Hs Hn Hr. unfold scaling, system_scaling. cbv zeta.
  assert (Hd : 0 < sumn (o_npe o) (fun ni => rho (o_elem o ni)) / INR (o_npe o)).
  { apply Rdiv_lt_0_compat; [|apply lt_0_INR; exact Hn]. revert Hr Hn. generalize (o_npe o) as m. induction m as [|m IH]; intros Hr Hn; [lia|]. rewrite sumn_S.
    pose proof (Hr m ltac:(lia)). destruct m as [|m]; [rewrite sumn_0; lra|]. assert (0 < sumn (S m) (fun ni => rho (o_elem o ni))) by (apply IH; [intros; apply Hr; lia|lia]). lra. }
  pose proof (exp_pos (1 / INR nDim * ln (sumn (o_npe o) (fun ni => dnv (o_elem o ni)) / INR (o_npe o)))) as E. fold (Rpower (sumn (o_npe o) (fun ni => dnv (o_elem o ni)) / INR (o_npe o)) (1 / INR nDim)) in E.
  set (P := Rpower _ _) in *. set (D := sumn (o_npe o) (fun ni => rho (o_elem o ni)) / INR (o_npe o)) in *.
  assert (0 < P / D) by (apply Rdiv_lt_0_compat; assumption). replace (sf * P / D) with (sf * (P/D)) by (unfold Rdiv; ring).
  destruct (Req_dec sf 0) as [->|N]; [lra|]. assert (0 < sf * (P/D)) by (apply Rmult_lt_0_compat; lra). lra.
Qed.
