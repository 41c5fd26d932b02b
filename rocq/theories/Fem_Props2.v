(** C85: finite-element kernels, vector equations. *)
Require Import Reals List Bool Lra Lia Arith.
From Verif Require Import RUtil Edge_Model Edge_Proofs Elem_Model Elem_Spec Elem_Proofs Elem_Proofs2.
From Verif Require Import Fem_Model Fem_Spec Fem_Props.
Import ListNotations.
Open Scope R_scope.

(* ------------------------------------------------------------------ generic vector assembly *)
Definition rowA (n d : nat) (c : nat -> nat -> nat -> R) (ir row col : nat) : R :=
  sumn d (fun i => dl row (ir*d+i) * sumn n (fun ic => sumn d (fun j => dl col (ic*d+j) * c i ic j))).
Definition rowB (d : nat) (r : nat -> R) (ir row : nat) : R := sumn d (fun i => dl row (ir*d+i) * r i).
Definition galv (np n d : nat) (k : esys -> esys) (c : nat -> nat -> nat -> nat -> nat -> R) (r : nat -> nat -> nat -> R) : Prop :=
  forall s, eff s (k s) (fun row col => sumn np (fun ip => sumn n (fun ir => rowA n d (c ip ir) ir row col)))
                        (fun row => sumn np (fun ip => sumn n (fun ir => rowB d (r ip ir) ir row))).
Lemma galv_loop np n d (body : nat -> nat -> esys -> esys) c r :
  (forall ip ir s, (ip < np)%nat -> (ir < n)%nat -> eff s (body ip ir s) (rowA n d (c ip ir) ir) (rowB d (r ip ir) ir)) ->
  galv np n d (fun s => loop np (fun ip s => loop n (body ip) s) s) c r.
Proof.
  intros H s. apply (eff_loop np _ (fun ip row col => sumn n (fun ir => rowA n d (c ip ir) ir row col)) (fun ip row => sumn n (fun ir => rowB d (r ip ir) ir row))).
  intros ip s1 Hip. apply (eff_loop n _ (fun ir row col => rowA n d (c ip ir) ir row col) (fun ir row => rowB d (r ip ir) ir row)). intros; apply H; assumption.
Qed.
Lemma flat_pick n d a i (f : nat -> nat -> R) : (a < n)%nat -> (i < d)%nat ->
  sumn n (fun ir => sumn d (fun i' => dl (a*d+i) (ir*d+i') * f ir i')) = f a i.
Proof.
  intros Ha Hi. rewrite (sumn_ext n _ (fun ir => dl a ir * sumn d (fun i' => dl i i' * f ir i'))).
  - rewrite sumn_dl2 by assumption. apply sumn_dl2; assumption.
  - intros ir _. rewrite <- sumn_scal. apply sumn_ext. intros i' Hi'. rewrite dl_flat by assumption. ring.
Qed.
Lemma galv_added np n d k c r s a i b j : galv np n d k c r -> (a < n)%nat -> (i < d)%nat -> (b < n)%nat -> (j < d)%nat ->
  added k s (a*d+i) (b*d+j) = sumn np (fun ip => c ip a i b j).
Proof.
  intros H Ha Hi Hb Hj. destruct (H s) as [E _]. unfold added. rewrite E.
  replace (sumn np (fun ip => c ip a i b j)) with (sumn np (fun ip => sumn n (fun ir => rowA n d (c ip ir) ir (a*d+i) (b*d+j)))); [ring|].
  apply sumn_ext. intros ip _. unfold rowA.
  rewrite (flat_pick n d a i (fun ir i' => sumn n (fun ic => sumn d (fun j0 => dl (b*d+j) (ic*d+j0) * c ip ir i' ic j0)))) by assumption.
  apply (flat_pick n d b j (fun ic j0 => c ip a i ic j0)); assumption.
Qed.
Lemma galv_rhs np n d k c r s a i : galv np n d k c r -> (a < n)%nat -> (i < d)%nat -> added_rhs k s (a*d+i) = sumn np (fun ip => r ip a i).
Proof.
  intros H Ha Hi. destruct (H s) as [_ E]. unfold added_rhs. rewrite E.
  replace (sumn np (fun ip => r ip a i)) with (sumn np (fun ip => sumn n (fun ir => rowB d (r ip ir) ir (a*d+i)))); [ring|].
  apply sumn_ext. intros ip _. unfold rowB. apply (flat_pick n d a i (fun ir i' => r ip ir i')); assumption.
Qed.
Lemma flat_div n d row : (row < n*d)%nat -> exists a i, (a < n)%nat /\ (i < d)%nat /\ row = (a*d+i)%nat.
Proof.
  intros H. assert (d <> 0)%nat by (intro; subst; lia).
  exists (row / d)%nat, (row mod d)%nat. split; [apply Nat.div_lt_upper_bound; lia|]. split; [apply Nat.mod_upper_bound; assumption|].
  rewrite (Nat.div_mod row d) at 1 by assumption. lia.
Qed.
Lemma galv_newton np n d (k : (nat -> R) -> esys -> esys) c (r : (nat -> R) -> nat -> nat -> nat -> R) :
  (forall q, galv np n d (k q) c (r q)) ->
  (forall q e ip a i, (ip < np)%nat -> (a < n)%nat -> (i < d)%nat ->
     r (fun x => q x + e x) ip a i = r q ip a i - sumn n (fun b => sumn d (fun j => c ip a i b j * e (b*d+j)%nat))) ->
  exact_newton (n*d) k.
Proof.
  intros H Hr q e s row Hrow. destruct (flat_div n d row Hrow) as (a & i & Ha & Hi & ->).
  pose proof (galv_rhs _ _ _ _ _ _ s a i (H (fun x => q x + e x)) Ha Hi) as E1.
  pose proof (galv_rhs _ _ _ _ _ _ s a i (H q) Ha Hi) as E2. unfold added_rhs in *.
  assert (E3 : sumn (n*d) (fun j => (eL_ (k q s) (a*d+i) j - eL_ s (a*d+i) j) * e j) = sumn np (fun ip => sumn n (fun b => sumn d (fun j => c ip a i b j * e (b*d+j)%nat)))).
  { rewrite sumn_flat, (sumn_swap np n). apply sumn_ext. intros b Hb. rewrite (sumn_swap np d). apply sumn_ext. intros j Hj.
    pose proof (galv_added _ _ _ _ _ _ s a i b j (H q) Ha Hi Hb Hj) as E. unfold added in E. rewrite E, <- sumn_scal_r. reflexivity. }
  rewrite E3.
  assert (E4 : sumn np (fun ip => r (fun x => q x + e x) ip a i) = sumn np (fun ip => r q ip a i) - sumn np (fun ip => sumn n (fun b => sumn d (fun j => c ip a i b j * e (b*d+j)%nat)))).
  { rewrite <- sumn_minus. apply sumn_ext. intros. apply Hr; assumption. }
  rewrite E4 in E1. lra.
Qed.
Lemma galv_conservative np n d k c r : galv np n d k c r ->
  (forall ip i b j, (ip < np)%nat -> (i < d)%nat -> (b < n)%nat -> (j < d)%nat -> sumn n (fun a => c ip a i b j) = 0) ->
  (forall ip i, (ip < np)%nat -> (i < d)%nat -> sumn n (fun a => r ip a i) = 0) -> conservative_vec d n k.
Proof.
  intros H Hc Hr s i Hi. split.
  - match goal with |- ?x = ?y => assert (E : x - y = 0); [|lra] end. rewrite <- sumn_minus.
    rewrite (sumn_ext n _ (fun a => sumn np (fun ip => r ip a i))).
    2:{ intros a Ha. apply (galv_rhs _ _ _ _ _ _ s a i H Ha Hi). }
    rewrite sumn_swap. apply sumn_zero. intros; apply Hr; assumption.
  - intros col. match goal with |- ?x = ?y => assert (E : x - y = 0); [|lra] end. rewrite <- sumn_minus.
    destruct (H s) as [E _].
    rewrite (sumn_ext n _ (fun a => sumn np (fun ip => sumn n (fun ic => sumn d (fun j => dl col (ic*d+j) * c ip a i ic j))))).
    2:{ intros a Ha. rewrite E. match goal with |- ?x + ?y - ?x = ?z => transitivity y; [ring|] end.
        apply sumn_ext. intros ip _. unfold rowA. apply (flat_pick n d a i (fun ir i' => sumn n (fun ic => sumn d (fun j => dl col (ic*d+j) * c ip ir i' ic j)))); assumption. }
    rewrite sumn_swap. apply sumn_zero. intros ip Hip. rewrite sumn_swap. apply sumn_zero. intros ic Hic.
    rewrite sumn_swap. apply sumn_zero. intros j Hj. rewrite sumn_scal, Hc by assumption. ring.
Qed.

(** row contributions *)
Lemma row_ext n d c c' r r' ir s s' :
  eff s s' (rowA n d c ir) (rowB d r ir) ->
  (forall i b j, (i < d)%nat -> (b < n)%nat -> (j < d)%nat -> c i b j = c' i b j) -> (forall i, (i < d)%nat -> r i = r' i) ->
  eff s s' (rowA n d c' ir) (rowB d r' ir).
Proof.
  intros E H1 H2. eapply eff_ext; [exact E| |].
  - intros row col. unfold rowA. apply sumn_ext. intros i Hi. f_equal. apply sumn_ext. intros b Hb. apply sumn_ext. intros j Hj. rewrite H1 by assumption. reflexivity.
  - intros row. unfold rowB. apply sumn_ext. intros i Hi. rewrite H2 by assumption. reflexivity.
Qed.

(* ------------------------------------------------------------------ projected nodal gradient *)
Definition dm (i j : nat) : R := dl i j.
Lemma fem_png_gal m q G : galv (f_ngp m) (f_npe m) (f_dim m) (fem_png m q G)
  (fun ip a i b j => dl i j * (ipF m ip * (f_N m ip a * f_N m ip b)))
  (fun ip a i => - (ipF m ip * (f_N m ip a * value m (comp (f_dim m) G i) ip + f_dn m ip a i * value m q ip))).
Proof.
  unfold fem_png. cbv zeta. apply galv_loop. intros ip ir s Hip Hir.
  eapply eff_ext.
  - apply (eff_loop (f_dim m) _ (fun i row col => dl row (ir*f_dim m+i) * sumn (f_npe m) (fun ic => dl col (ic*f_dim m+i) * (ipF m ip * (f_N m ip ir * f_N m ip ic))))
      (fun i row => dl row (ir*f_dim m+i) * - (ipF m ip * (f_N m ip ir * value m (comp (f_dim m) G i) ip + f_dn m ip ir i * value m q ip)))).
    intros i s1 Hi. eapply eff_ext.
    + eapply eff_trans; [|effs]. apply (eff_loop (f_npe m) _ (fun ic row col => dl row (ir*f_dim m+i) * (dl col (ic*f_dim m+i) * (ipF m ip * (f_N m ip ir * f_N m ip ic)))) (fun _ _ => 0)).
      intros ic s2 Hic. eapply eff_ext; [effs| |]; intros; cbv beta; ring.
    + intros row col; cbv beta. rewrite sumn_scal. ring.
    + intros row; cbv beta. rewrite (sumn_zero (f_npe m) (fun _ => 0)) by reflexivity. unfold value, at_gp, comp. ring.
  - intros row col. unfold rowA. apply sumn_ext. intros i Hi. f_equal. apply sumn_ext. intros ic _.
    rewrite (sumn_ext (f_dim m) _ (fun j => dl i j * (dl col (ic * f_dim m + j) * (ipF m ip * (f_N m ip ir * f_N m ip ic))))) by (intros; ring).
    rewrite sumn_dl2 by assumption. reflexivity.
  - intros row. reflexivity.
Qed.
(** the residual is zero exactly when G represents the gradient of q in the weak sense (boundary term below) *)
Theorem C85_png_weak_form : forall m q G s a i, (a < f_npe m)%nat -> (i < f_dim m)%nat ->
  added_rhs (fem_png m q G) s (a*f_dim m+i) =
  - integral m (fun ip => shape m a ip * value m (comp (f_dim m) G i) ip) - integral m (fun ip => dshape m a ip i * value m q ip).
Proof.
  intros. rewrite (galv_rhs _ _ _ _ _ _ s a i (fem_png_gal m q G)) by assumption. unfold integral.
  unfold Rminus. rewrite <- !sumn_opp, <- sumn_plus. apply sumn_ext.
  intros. unfold ipF, shape, dshape. ring.
Qed.
Lemma comp_plus d (u e : nat -> R) i : comp d (fun x => u x + e x) i = fun ic => comp d u i ic + comp d e i ic.
Proof. reflexivity. Qed.
Theorem C85_png_newton : forall m q, exact_newton (f_npe m*f_dim m) (fem_png m q).
Proof.
  intros m q. apply (galv_newton (f_ngp m) (f_npe m) (f_dim m) (fem_png m q) _ _ (fem_png_gal m q)). intros G e ip a i Hip Ha Hi.
  rewrite comp_plus, value_plus.
  rewrite (sumn_ext (f_npe m) (fun b => sumn _ _) (fun b => (ipF m ip * f_N m ip a) * (f_N m ip b * comp (f_dim m) e i b))).
  - rewrite sumn_scal. unfold value at 2. ring.
  - intros b _. rewrite (sumn_ext (f_dim m) _ (fun j => dl i j * (ipF m ip * (f_N m ip a * f_N m ip b) * e (b*f_dim m+j)%nat))) by (intros; ring).
    rewrite sumn_dl2 by assumption. unfold comp. ring.
Qed.
(** rows sum to minus the integral of G alone *)
Theorem C85_png_total : forall m q G s i, fem_unity m -> fem_grad_unity m -> (i < f_dim m)%nat ->
  sumn (f_npe m) (fun a => added_rhs (fem_png m q G) s (a*f_dim m+i)) = - integral m (value m (comp (f_dim m) G i)).
Proof.
  intros m q G s i HU HG Hi.
  rewrite (sumn_ext (f_npe m) _ (fun a => sumn (f_ngp m) (fun ip => f_N m ip a * - (ipF m ip * value m (comp (f_dim m) G i) ip) + f_dn m ip a i * - (ipF m ip * value m q ip)))).
  2:{ intros a Ha. rewrite (galv_rhs _ _ _ _ _ _ s a i (fem_png_gal m q G)) by assumption. apply sumn_ext. intros; ring. }
  rewrite sumn_swap. unfold integral. rewrite <- sumn_opp. apply sumn_ext. intros ip Hip.
  rewrite sumn_plus, !sumn_scal_r, HU, HG by assumption. unfold ipF. ring.
Qed.

(* ------------------------------------------------------------------ momentum: inertia and pressure gradient *)
Lemma fem_mom_mass_gal m t r1 r0 rm u1 u0 um Gp : galv (f_ngp m) (f_npe m) (f_dim m) (fem_mom_mass m t r1 r0 rm u1 u0 um Gp)
  (fun ip a i b j => dl i j * (ipF m ip * (f_N m ip a * (ga1 t / dt t * value m r1 ip) * f_N m ip b)))
  (fun ip a i => - (ipF m ip * (f_N m ip a * ((ga1 t * value m r1 ip * value m (comp (f_dim m) u1 i) ip + ga2 t * value m r0 ip * value m (comp (f_dim m) u0 i) ip
      + ga3 t * value m rm ip * value m (comp (f_dim m) um i) ip) / dt t + value m (comp (f_dim m) Gp i) ip)))).
Proof.
  unfold fem_mom_mass. cbv zeta. apply galv_loop. intros ip ir s Hip Hir.
  set (w := fun ic => ipF m ip * (f_N m ip ir * (ga1 t / dt t * value m r1 ip) * f_N m ip ic)).
  set (z := fun ic i => f_N m ip ic * ((ga1 t * value m r1 ip * comp (f_dim m) u1 i ic + ga2 t * value m r0 ip * comp (f_dim m) u0 i ic
      + ga3 t * value m rm ip * comp (f_dim m) um i ic) / dt t + comp (f_dim m) Gp i ic)).
  eapply eff_ext.
  - apply (eff_loop (f_npe m) _ (fun ic row col => sumn (f_dim m) (fun i => dl row (ir*f_dim m+i) * (dl col (ic*f_dim m+i) * w ic)))
      (fun ic row => sumn (f_dim m) (fun i => dl row (ir*f_dim m+i) * - (ipF m ip * f_N m ip ir * z ic i)))).
    intros ic s1 Hic. apply (eff_loop (f_dim m) _ (fun i row col => dl row (ir*f_dim m+i) * (dl col (ic*f_dim m+i) * w ic)) (fun i row => dl row (ir*f_dim m+i) * - (ipF m ip * f_N m ip ir * z ic i))).
    intros i s2 Hi. eapply eff_ext; [effs| |]; intros; cbv beta; unfold w, z, comp, value, at_gp, Rdiv; ring.
  - intros row col. cbv beta. rewrite sumn_swap. unfold rowA. apply sumn_ext. intros i Hi. rewrite sumn_scal. f_equal. apply sumn_ext. intros ic _.
    rewrite (sumn_ext (f_dim m) _ (fun j => dl i j * (dl col (ic * f_dim m + j) * w ic))) by (intros; unfold w; ring).
    rewrite sumn_dl2 by assumption. reflexivity.
  - intros row. cbv beta. rewrite sumn_swap. unfold rowB. apply sumn_ext. intros i Hi. rewrite sumn_scal. f_equal. rewrite sumn_opp, sumn_scal.
    unfold z. rewrite (sumn_ext (f_npe m) _ (fun ic => ga1 t * value m r1 ip * / dt t * (f_N m ip ic * comp (f_dim m) u1 i ic) + ga2 t * value m r0 ip * / dt t * (f_N m ip ic * comp (f_dim m) u0 i ic)
       + ga3 t * value m rm ip * / dt t * (f_N m ip ic * comp (f_dim m) um i ic) + f_N m ip ic * comp (f_dim m) Gp i ic)) by (intros; unfold Rdiv; ring).
    rewrite !sumn_plus, !sumn_scal. unfold value, Rdiv. ring.
Qed.
Theorem C85_momentum_inertia_weak_form : forall m t r1 r0 rm u1 u0 um Gp s a i, (a < f_npe m)%nat -> (i < f_dim m)%nat ->
  added_rhs (fem_mom_mass m t r1 r0 rm u1 u0 um Gp) s (a*f_dim m+i) =
  - integral m (fun ip => shape m a ip * ((ga1 t * value m r1 ip * value m (comp (f_dim m) u1 i) ip + ga2 t * value m r0 ip * value m (comp (f_dim m) u0 i) ip
      + ga3 t * value m rm ip * value m (comp (f_dim m) um i) ip) / dt t + value m (comp (f_dim m) Gp i) ip)).
Proof. intros. rewrite (galv_rhs _ _ _ _ _ _ s a i (fem_mom_mass_gal m t r1 r0 rm u1 u0 um Gp)) by assumption. unfold integral. rewrite <- sumn_opp. reflexivity. Qed.
Theorem C85_momentum_inertia_newton : forall m t r1 r0 rm u0 um Gp, exact_newton (f_npe m*f_dim m) (fun u1 => fem_mom_mass m t r1 r0 rm u1 u0 um Gp).
Proof.
  intros m t r1 r0 rm u0 um Gp. apply (galv_newton (f_ngp m) (f_npe m) (f_dim m) (fun u1 => fem_mom_mass m t r1 r0 rm u1 u0 um Gp) _ _ (fun u1 => fem_mom_mass_gal m t r1 r0 rm u1 u0 um Gp)).
  intros u e ip a i Hip Ha Hi. cbv beta. rewrite comp_plus, value_plus.
  rewrite (sumn_ext (f_npe m) (fun b => sumn _ _) (fun b => (ipF m ip * (f_N m ip a * (ga1 t / dt t * value m r1 ip))) * (f_N m ip b * comp (f_dim m) e i b))).
  - rewrite sumn_scal. change (sumn (f_npe m) (fun b => f_N m ip b * comp (f_dim m) e i b)) with (value m (comp (f_dim m) e i) ip). unfold Rdiv. ring.
  - intros b _. rewrite (sumn_ext (f_dim m) _ (fun j => dl i j * (ipF m ip * (f_N m ip a * (ga1 t / dt t * value m r1 ip) * f_N m ip b) * e (b*f_dim m+j)%nat))) by (intros; ring).
    rewrite sumn_dl2 by assumption. unfold comp. ring.
Qed.

(* ------------------------------------------------------------------ momentum: body force *)
Lemma fem_body_gal m bf : galv (f_ngp m) (f_npe m) (f_dim m) (fem_body_force m bf) (fun _ _ _ _ _ => 0) (fun ip a i => ipF m ip * (f_N m ip a * bf i)).
Proof.
  unfold fem_body_force. cbv zeta. apply galv_loop. intros ip ir s Hip Hir. eapply eff_ext.
  - apply (eff_loop (f_dim m) _ (fun _ _ _ => 0) (fun i row => dl row (ir*f_dim m+i) * (ipF m ip * (f_N m ip ir * bf i)))).
    intros i s1 Hi. eapply eff_ext; [effs| |]; intros; cbv beta; ring.
  - intros row col. cbv beta. rewrite sumn_zero by reflexivity. unfold rowA. symmetry. apply sumn_zero. intros i _. rewrite sumn_zero; [ring|].
    intros ic _. apply sumn_zero. intros; ring.
  - reflexivity.
Qed.
(** the nodal forces add up to the body force times the element volume *)
Theorem C85_body_force_total : forall m bf s i, fem_unity m -> (i < f_dim m)%nat ->
  sumn (f_npe m) (fun a => added_rhs (fem_body_force m bf) s (a*f_dim m+i)) = bf i * integral m (fun _ => 1) /\
  (forall row col, eL_ (fem_body_force m bf s) row col = eL_ s row col).
Proof.
  intros m bf s i HU Hi. split.
  - rewrite (sumn_ext (f_npe m) _ (fun a => sumn (f_ngp m) (fun ip => f_N m ip a * (ipF m ip * bf i)))).
    2:{ intros a Ha. rewrite (galv_rhs _ _ _ _ _ _ s a i (fem_body_gal m bf)) by assumption. apply sumn_ext. intros; ring. }
    rewrite sumn_swap. unfold integral. rewrite <- sumn_scal. apply sumn_ext. intros ip Hip. rewrite sumn_scal_r, HU by assumption. unfold ipF. ring.
  - intros row col. destruct (fem_body_gal m bf s) as [E _]. rewrite E. rewrite (sumn_zero (f_ngp m)); [ring|]. intros ip _. apply sumn_zero. intros ir _.
    unfold rowA. apply sumn_zero. intros i' _. rewrite sumn_zero; [ring|]. intros ic _. apply sumn_zero. intros; ring.
Qed.

(* ------------------------------------------------------------------ momentum: advection *)
Lemma fem_mom_adv_gal m skew pstab tau rho p v Gp u : galv (f_ngp m) (f_npe m) (f_dim m) (fem_mom_adv m skew pstab tau rho p v Gp u)
  (fun ip a i b j => dl i j * (ipF m ip * (- skew * dot (f_dim m) (dshape m a ip) (stab_flux m (pstab*tau) rho p v Gp ip) * f_N m ip b
      + (1 - skew) * f_N m ip a * dot (f_dim m) (mass_flux m rho v ip) (dshape m b ip))))
  (fun ip a i => ipF m ip * (skew * dot (f_dim m) (dshape m a ip) (stab_flux m (pstab*tau) rho p v Gp ip) * value m (comp (f_dim m) u i) ip
      - (1 - skew) * f_N m ip a * (dot (f_dim m) (mass_flux m rho v ip) (fun j => gradu m u ip i j)
          + dot (f_dim m) (mass_flux m rho v ip) (fun j => gradu m u ip j i)))).
Proof.
  unfold fem_mom_adv. cbv zeta. apply galv_loop. intros ip ir s Hip Hir. rewrite loop_neg.
  match goal with |- context [0 - sumn (f_dim m) ?f] =>
    replace (0 - sumn (f_dim m) f) with (- dot (f_dim m) (dshape m ir ip) (stab_flux m (pstab*tau) rho p v Gp ip)) end.
  2:{ unfold dot. rewrite (sumn_ext (f_dim m) (fun k => _ * f_dn m ip ir k) (fun j => dshape m ir ip j * stab_flux m (pstab*tau) rho p v Gp ip j)); [ring|].
      intros. unfold dshape, stab_flux, mass_flux, grad, value, comp, rhoU_gp. ring. }
  set (D := dot (f_dim m) (dshape m ir ip) (stab_flux m (pstab*tau) rho p v Gp ip)).
  set (F := ipF m ip). set (w := f_N m ip ir). set (d := f_dim m).
  set (c1 := fun ic => F * (- skew * D * f_N m ip ic + (1-skew) * w * dot d (mass_flux m rho v ip) (dshape m ic ip))).
  set (z := fun ic i => c1 ic * u (ic*d+i)%nat + sumn d (fun j => F * ((1-skew) * w * mass_flux m rho v ip j * f_dn m ip ic i) * u (ic*d+j)%nat)).
  eapply eff_ext.
  - apply (eff_loop (f_npe m) _ (fun ic row col => sumn d (fun i => dl row (ir*d+i) * (dl col (ic*d+i) * c1 ic)))
      (fun ic row => sumn d (fun i => dl row (ir*d+i) * - z ic i))).
    intros ic s1 Hic. apply (eff_loop d _ (fun i row col => dl row (ir*d+i) * (dl col (ic*d+i) * c1 ic)) (fun i row => dl row (ir*d+i) * - z ic i)).
    intros i s2 Hi.
    match goal with |- context [loop d ?b (?s0, 0)] =>
      destruct (loop_acc d b (fun j a => a + (1-skew) * w * mass_flux m rho v ip j * f_dn m ip ic j * F) (fun _ _ _ => 0)
        (fun j row => dl row (ir*d+i) * - (F * ((1-skew) * w * mass_flux m rho v ip j * f_dn m ip ic i) * u (ic*d+j)%nat)) s0 0) as [E1 E2];
      [reflexivity| |destruct (loop d b (s0, 0)) as [s' x]] end.
    { intros j s3 a Hj. cbn [fst]. eapply eff_ext; [effs| |]; intros; cbv beta; unfold mass_flux, rhoU_gp, F, d; ring. }
    cbn [fst snd] in *. rewrite loop_sum, Rplus_0_l in E1.
    assert (Ex : x = F * ((1-skew) * w * dot d (mass_flux m rho v ip) (dshape m ic ip))).
    { rewrite E1. unfold dot. rewrite <- !sumn_scal. apply sumn_ext. intros; unfold dshape; ring. }
    clear E1. subst x. eapply eff_ext.
    + eapply eff_trans; [|eff1]. eapply eff_trans; [|eff1]. eapply eff_trans; [|exact E2]. effs.
    + intros row col; cbv beta. rewrite (sumn_zero d (fun _ => 0)) by reflexivity. unfold c1. ring.
    + intros row; cbv beta. rewrite sumn_scal, sumn_opp. unfold z, c1. ring.
  - intros row col. cbv beta. rewrite sumn_swap. unfold rowA. apply sumn_ext. intros i Hi. rewrite sumn_scal. f_equal. apply sumn_ext. intros ic _.
    rewrite (sumn_ext (f_dim m) _ (fun j => dl i j * (dl col (ic * f_dim m + j) * c1 ic))) by (intros; unfold c1, F, D, w, d; ring).
    rewrite sumn_dl2 by assumption. reflexivity.
  - intros row. cbv beta. rewrite sumn_swap. unfold rowB. apply sumn_ext. intros i Hi. rewrite sumn_scal. f_equal. rewrite sumn_opp.
    unfold z. rewrite sumn_plus.
    assert (A1 : sumn (f_npe m) (fun ic => c1 ic * u (ic*d+i)%nat) = F * (- skew * D * value m (comp d u i) ip + (1-skew)*w*dot d (mass_flux m rho v ip) (fun j => gradu m u ip i j))).
    { unfold gradu. change (fun j => grad m (comp (f_dim m) u i) ip j) with (grad m (comp (f_dim m) u i) ip). unfold d. rewrite (dot_cols m (mass_flux m rho v ip) (comp (f_dim m) u i)).
      unfold c1, value. rewrite (sumn_ext (f_npe m) _ (fun ic => (- F * skew * D) * (f_N m ip ic * comp (f_dim m) u i ic) + (F * ((1-skew)*w)) * (dot (f_dim m) (mass_flux m rho v ip) (dshape m ic ip) * comp (f_dim m) u i ic))).
      - rewrite sumn_plus, !sumn_scal. unfold d. ring.
      - intros. unfold comp, d. ring. }
    assert (A2 : sumn (f_npe m) (fun ic => sumn d (fun j => F * ((1 - skew) * w * mass_flux m rho v ip j * f_dn m ip ic i) * u (ic * d + j)%nat)) = F * ((1-skew)*w*dot d (mass_flux m rho v ip) (fun j => gradu m u ip j i))).
    { rewrite sumn_swap. unfold dot. rewrite <- !sumn_scal. apply sumn_ext. intros j Hj. unfold gradu, grad, comp. fold d.
      rewrite (sumn_ext (f_npe m) (fun i0 => F * _ * _) (fun ic => (F * ((1-skew) * w * mass_flux m rho v ip j)) * (f_dn m ip ic i * u (ic*d+j)%nat))) by (intros; ring).
      rewrite sumn_scal. ring. }
    rewrite A1, A2. unfold F, D, d. ring.
Qed.
Theorem C85_momentum_advection_weak_form : forall m tau rho p v Gp u s a i, (a < f_npe m)%nat -> (i < f_dim m)%nat ->
  added_rhs (fem_mom_adv_shipped m tau rho p v Gp u) s (a*f_dim m+i) =
  integral m (fun ip => dot (f_dim m) (dshape m a ip) (stab_flux m tau rho p v Gp ip) * value m (comp (f_dim m) u i) ip).
Proof.
  intros m tau rho p v Gp u s a i Ha Hi. unfold fem_mom_adv_shipped. rewrite (galv_rhs _ _ _ _ _ _ s a i (fem_mom_adv_gal m 1 1 tau rho p v Gp u)) by assumption.
  unfold integral. apply sumn_ext. intros ip _. replace (1*tau) with tau by ring. unfold ipF. ring.
Qed.
Theorem C85_momentum_advection_newton : forall m tau rho p v Gp, exact_newton (f_npe m*f_dim m) (fem_mom_adv_shipped m tau rho p v Gp).
Proof.
  intros m tau rho p v Gp. unfold fem_mom_adv_shipped.
  apply (galv_newton (f_ngp m) (f_npe m) (f_dim m) (fem_mom_adv m 1 1 tau rho p v Gp) _ _ (fem_mom_adv_gal m 1 1 tau rho p v Gp)).
  intros u e ip a i Hip Ha Hi. rewrite comp_plus, value_plus.
  set (D := dot (f_dim m) (dshape m a ip) (stab_flux m (1*tau) rho p v Gp ip)).
  rewrite (sumn_ext (f_npe m) (fun b => sumn _ _) (fun b => (- ipF m ip * D) * (f_N m ip b * comp (f_dim m) e i b))).
  - rewrite sumn_scal. change (sumn (f_npe m) (fun b => f_N m ip b * comp (f_dim m) e i b)) with (value m (comp (f_dim m) e i) ip). ring.
  - intros b _. rewrite (sumn_ext (f_dim m) _ (fun j => dl i j * ((- ipF m ip * D) * f_N m ip b * e (b*f_dim m+j)%nat))) by (intros; unfold D; ring).
    rewrite sumn_dl2 by assumption. unfold comp. ring.
Qed.
Theorem C85_momentum_advection_conservative : forall m tau rho p v Gp u, fem_grad_unity m ->
  conservative_vec (f_dim m) (f_npe m) (fem_mom_adv_shipped m tau rho p v Gp u).
Proof.
  intros m tau rho p v Gp u H. unfold fem_mom_adv_shipped. apply (galv_conservative _ _ _ _ _ _ (fem_mom_adv_gal m 1 1 tau rho p v Gp u)).
  - intros ip i b j Hip Hi Hb Hj.
    rewrite (sumn_ext (f_npe m) _ (fun a => dot (f_dim m) (dshape m a ip) (stab_flux m (1*tau) rho p v Gp ip) * (- dl i j * ipF m ip * f_N m ip b))) by (intros; ring).
    rewrite sumn_scal_r, dot_rows by assumption. ring.
  - intros ip i Hip Hi.
    rewrite (sumn_ext (f_npe m) _ (fun a => dot (f_dim m) (dshape m a ip) (stab_flux m (1*tau) rho p v Gp ip) * (ipF m ip * value m (comp (f_dim m) u i) ip))) by (intros; ring).
    rewrite sumn_scal_r, dot_rows by assumption. ring.
Qed.
(** momentum is carried by the same mass flux as continuity and scalars: the momentum of a unit velocity in one
    component equals tau times the continuity residual *)
Theorem C85_advection_consistent_with_continuity : forall m tau rho p v Gp s a i, tau <> 0 -> fem_unity m -> (a < f_npe m)%nat -> (i < f_dim m)%nat ->
  added_rhs (fem_mom_adv_shipped m tau rho p v Gp (fun _ => 1)) s (a*f_dim m+i) = tau * added_rhs (fem_continuity m tau rho p v Gp) s a.
Proof.
  intros m tau rho p v Gp s a i Ht HU Ha Hi. rewrite C85_momentum_advection_weak_form, C85_continuity_weak_form by assumption.
  rewrite (Rmult_comm tau). unfold Rdiv. rewrite Rmult_assoc, Rinv_l, Rmult_1_r by assumption. unfold integral. apply sumn_ext. intros ip Hip.
  assert (E : value m (comp (f_dim m) (fun _ => 1) i) ip = 1).
  { unfold value, comp. rewrite (sumn_ext (f_npe m) _ (fun ic => f_N m ip ic)) by (intros; ring). apply HU; assumption. }
  rewrite E. ring.
Qed.
