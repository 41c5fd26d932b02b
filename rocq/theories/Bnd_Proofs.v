(** What each boundary kernel adds to the local system. *)
Require Import Reals List Bool Lra Lia Arith.
From Verif Require Import RUtil Edge_Model Edge_Proofs Elem_Model Elem_Spec Elem_Proofs Elem_Proofs2 Bnd_Model.
Import ListNotations.
Open Scope R_scope.

Lemma eff_addRL r cL cR v s : eff s (addRL r cL cR v s) (fun a b => dl a r * (dl b cR - dl b cL) * v) (fun _ => 0).
Proof. unfold addRL. eapply eff_ext; [effs| |]; intros; cbv beta; ring. Qed.
Ltac effR := first [apply eff_addRL | apply eff_addL | apply eff_addB].
Ltac effRs := first [effR | eapply eff_trans; [|effR]; effRs].
Lemma eff_if (b : bool) s s1 s2 A1 b1 A2 b2 : eff s s1 A1 b1 -> eff s s2 A2 b2 ->
  eff s (if b then s1 else s2) (fun i j => if b then A1 i j else A2 i j) (fun i => if b then b1 i else b2 i).
Proof. destruct b; auto. Qed.
Lemma eff_loop_ext n body s A b A' b' :
  (forall k s, (k < n)%nat -> eff s (body k s) (A k) (b k)) ->
  (forall i j, sumn n (fun k => A k i j) = A' i j) -> (forall i, sumn n (fun k => b k i) = b' i) ->
  eff s (loop n body s) A' b'.
Proof. intros H E1 E2. eapply eff_ext; [apply (eff_loop n body A b); exact H|exact E1|exact E2]. Qed.

(* ---------------------------------------------------------------- scalar, edge *)
Definition upside (tm qi qe : R) : R := if Rlt_dec 0 tm then tm*qi else tm*qe.
Lemma scalar_open_edge_eff f mdot q qE s :
  eff s (scalar_open_edge f mdot q qE s)
   (fun i j => sumn (f_npf f) (fun ip => dl i (f_ord f ip) * (dl j (f_ord f ip) * upside (mdot ip) 1 0)))
   (fun i => sumn (f_npf f) (fun ip => - (dl i (f_ord f ip) * upside (mdot ip) (q (f_ord f ip)) (qE (f_ord f ip))))).
Proof.
  unfold scalar_open_edge. eapply eff_loop. intros ip s1 Hip. cbv zeta. unfold upside.
  destruct (Rlt_dec 0 (mdot ip)).
  - eapply eff_ext; [effs| |]; intros; cbv beta; ring.
  - eapply eff_ext; [effs| |]; intros; cbv beta; ring.
Qed.

(* ---------------------------------------------------------------- continuity, edge *)
Lemma continuity_open_edge_eff f tau noc c s :
  eff s (continuity_open_edge f tau noc c s)
   (fun i j => sumn (f_npf f) (fun ip => dl i (f_ord f ip) * ((dl j (f_ord f ip) + dl j (f_op f ip)) * ((1/2)*(f_asq f ip*(1/o_axdx f (of_x c) ip))))))
   (fun i => sumn (f_npf f) (fun ip => - (dl i (f_ord f ip) * (mdot_open_edge f tau noc c ip/tau)))).
Proof.
  unfold continuity_open_edge. eapply eff_loop. intros ip s1 Hip. cbv zeta.
  match goal with |- context [addB _ (- (?x/tau)) _] => change x with (mdot_open_edge f tau noc c ip) end.
  eapply eff_ext; [effs| |]; intros; cbv beta; ring.
Qed.

(* ---------------------------------------------------------------- momentum, edge *)
Definition off (i j : nat) (x : R) : R := if Nat.eqb i j then 0 else x.
(** coefficient of (R minus L) velocity component k in the coded row of component i *)
Definition jopen (f : fe) (w : vfields) (ip i k : nat) : R :=
  let mu := vf_mu w (f_ord f ip) in let asq := f_asq f ip in let inv := 1 / v_axdx f (vf_x w) ip in
  let n := f_n f ip in let A := f_A f ip in let om := 1 - n i * n i in
  dl k i * (- mu*asq*inv*om) + (- mu*A i*A k*inv*om) + off i k (mu*asq*inv*(n i*n k) + mu*A k*A k*inv*(n i*n k))
  + dl k i * sumn (f_d f) (fun j => off i j (mu*A j*A i*inv*(n i*n j))).
Definition jsym (f : fe) (w : vfields) (ip i k : nat) : R :=
  let mu := vf_mu w (f_ord f ip) in let asq := f_asq f ip in let inv := 1 / v_axdx f (vf_x w) ip in
  let n := f_n f ip in let A := f_A f ip in
  dl k i * (- mu*asq*inv*(n i)*(n i)) + (- mu*A i*A k*inv*(n i*n i)) + off i k (- mu*asq*inv*(n i)*(n k) - mu*A k*A k*(n i)*(n k))
  + dl k i * sumn (f_d f) (fun j => off i j (- mu*A j*A i*(n i)*(n j))).
(** column difference of component k *)
Definition rl (f : fe) (ip col k : nat) : R := dl col (f_ord f ip*f_d f+k) - dl col (f_op f ip*f_d f+k).

Lemma mom_open_visc_eff f w u ip s :
  eff s (mom_open_visc f w u ip s)
   (fun row col => sumn (f_d f) (fun i => dl row (f_ord f ip*f_d f+i) * sumn (f_d f) (fun k => rl f ip col k * jopen f w ip i k)))
   (fun row => sumn (f_d f) (fun i => - (dl row (f_ord f ip*f_d f+i) * (v_F f w u ip i - f_n f ip i * v_Fn f w u ip)))).
Proof.
  unfold mom_open_visc. cbv zeta. set (d := f_d f) in *. set (nR := f_ord f ip) in *. set (nL := f_op f ip) in *.
  apply eff_loop. clear s. intros i s Hi.
  set (mu := vf_mu w nR). set (asq := f_asq f ip). set (inv := 1 / v_axdx f (vf_x w) ip).
  set (n := f_n f ip). set (A := f_A f ip).
  eapply eff_ext.
  - eapply eff_trans; [|apply (eff_loop d _ (fun j row col => dl row (nR*d+i) * (rl f ip col j * (- mu*A i*A j*inv*(1 - n i*n i))
         + (rl f ip col j * off i j (mu*asq*inv*(n i*n j) + mu*A j*A j*inv*(n i*n j)) + rl f ip col i * off i j (mu*A j*A i*inv*(n i*n j)))))
       (fun _ _ => 0))].
    + effRs.
    + intros j s1 Hj. unfold off. destruct (Nat.eqb i j).
      * eapply eff_ext; [effRs| |]; intros; cbv beta; unfold rl, nR, nL, d; ring.
      * eapply eff_ext; [effRs| |]; intros; cbv beta; unfold rl; fold nR nL d; ring.
  - intros row col. cbv beta. rewrite sumn_scal.
    rewrite (sumn_plus d (fun j => rl f ip col j * (- mu*A i*A j*inv*(1 - n i*n i)))).
    rewrite (sumn_plus d (fun j => rl f ip col j * off i j _)). rewrite sumn_scal.
    unfold jopen. fold nR d. cbv zeta. fold mu asq inv n A.
    rewrite (sumn_ext d (fun k => rl f ip col k * (_ + _ + _ + _)) (fun k =>
       dl k i * (rl f ip col k * (- mu*asq*inv*(1 - n i*n i) + sumn d (fun j => off i j (mu*A j*A i*inv*(n i*n j)))))
       + (rl f ip col k * (- mu*A i*A k*inv*(1 - n i*n i)) + rl f ip col k * off i k (mu*asq*inv*(n i*n k) + mu*A k*A k*inv*(n i*n k))))) by (intros; ring).
    rewrite sumn_plus, sumn_dl by assumption. rewrite sumn_plus. 
    change (dl col (nR*d+i) - dl col (nL*d+i)) with (rl f ip col i). ring.
  - intros row. cbv beta. rewrite sumn_zero by (intros; reflexivity). ring.
Qed.

Lemma mom_sym_edge_eff f w u s :
  eff s (momentum_sym_edge f w u s)
   (fun row col => sumn (f_npf f) (fun ip => sumn (f_d f) (fun i => dl row (f_ord f ip*f_d f+i) * sumn (f_d f) (fun k => rl f ip col k * jsym f w ip i k))))
   (fun row => sumn (f_npf f) (fun ip => sumn (f_d f) (fun i => - (dl row (f_ord f ip*f_d f+i) * (f_n f ip i * v_Fn f w u ip))))).
Proof.
  unfold momentum_sym_edge. cbv zeta. apply eff_loop. clear s. intros ip s Hip.
  set (d := f_d f) in *. set (nR := f_ord f ip) in *. set (nL := f_op f ip) in *.
  apply eff_loop. clear s. intros i s Hi.
  set (mu := vf_mu w nR). set (asq := f_asq f ip). set (inv := 1 / v_axdx f (vf_x w) ip).
  set (n := f_n f ip). set (A := f_A f ip).
  eapply eff_ext.
  - eapply eff_trans; [|apply (eff_loop d _ (fun j row col => dl row (nR*d+i) * (rl f ip col j * (- mu*A i*A j*inv*(n i*n i))
         + (rl f ip col j * off i j (- mu*asq*inv*(n i)*(n j) - mu*A j*A j*(n i)*(n j)) + rl f ip col i * off i j (- mu*A j*A i*(n i)*(n j)))))
       (fun _ _ => 0))].
    + effRs.
    + intros j s1 Hj. unfold off. destruct (Nat.eqb i j).
      * eapply eff_ext; [effRs| |]; intros; cbv beta; unfold rl, nR, nL, d; ring.
      * eapply eff_ext; [effRs| |]; intros; cbv beta; unfold rl; fold nR nL d; ring.
  - intros row col. cbv beta. rewrite sumn_scal.
    rewrite (sumn_plus d (fun j => rl f ip col j * (- mu*A i*A j*inv*(n i*n i)))).
    rewrite (sumn_plus d (fun j => rl f ip col j * off i j _)). rewrite sumn_scal.
    unfold jsym. fold nR d. cbv zeta. fold mu asq inv n A.
    rewrite (sumn_ext d (fun k => rl f ip col k * (_ + _ + _ + _)) (fun k =>
       dl k i * (rl f ip col k * (- mu*asq*inv*(n i)*(n i) + sumn d (fun j => off i j (- mu*A j*A i*(n i)*(n j)))))
       + (rl f ip col k * (- mu*A i*A k*inv*(n i*n i)) + rl f ip col k * off i k (- mu*asq*inv*(n i)*(n k) - mu*A k*A k*(n i)*(n k))))) by (intros; ring).
    rewrite sumn_plus, sumn_dl by assumption. rewrite sumn_plus.
    change (dl col (nR*d+i) - dl col (nL*d+i)) with (rl f ip col i). ring.
  - intros row. cbv beta. rewrite sumn_zero by (intros; reflexivity). ring.
Qed.

(** momentum advected through the point, component i *)
Definition uent (f : fe) (w : vfields) (rho mvc tm : R) (ip : nat) : R :=
  tm/(rho*f_amag f ip) + mvc/(rho*f_amag f ip)*vf_mvc w.
Definition edge_mvc (f : fe) (w : vfields) (ip : nat) : R :=
  sumn (f_d f) (fun j => vf_rho w (f_ord f ip) * vf_mv w (f_ord f ip*f_d f+j)%nat * f_A f ip j).
Definition edge_bcn (f : fe) (w : vfields) (ip : nat) : R := sumn (f_d f) (fun i => f_n f ip i * vf_bc w (f_ord f ip*f_d f+i)%nat).
Definition edge_adv (f : fe) (w : vfields) (u : nat -> R) (tm : R) (ip i : nat) : R :=
  upside tm (u (f_ord f ip*f_d f+i)%nat)
    (uent f w (vf_rho w (f_ord f ip)) (edge_mvc f w ip) tm ip * f_n f ip i
     + (vf_bc w (f_ord f ip*f_d f+i)%nat - edge_bcn f w ip * f_n f ip i)).
Lemma mom_open_adv_eff f w mdot u ip s :
  eff s (mom_open_adv f w mdot u ip s)
   (fun row col => sumn (f_d f) (fun i => dl row (f_ord f ip*f_d f+i) * (dl col (f_ord f ip*f_d f+i) * upside (mdot ip) 1 0)))
   (fun row => sumn (f_d f) (fun i => - (dl row (f_ord f ip*f_d f+i) * edge_adv f w u (mdot ip) ip i))).
Proof.
  unfold mom_open_adv, edge_adv, upside, uent, edge_mvc, edge_bcn. cbv zeta.
  destruct (Rlt_dec 0 (mdot ip)); apply eff_loop; intros i s1 Hi.
  - eapply eff_ext; [effs| |]; intros; cbv beta; ring.
  - eapply eff_ext; [effs| |]; intros; cbv beta; ring.
Qed.
Lemma momentum_open_edge_eff f w mdot u s :
  eff s (momentum_open_edge f w mdot u s)
   (fun row col => sumn (f_npf f) (fun ip => sumn (f_d f) (fun i => dl row (f_ord f ip*f_d f+i) *
        (sumn (f_d f) (fun k => rl f ip col k * jopen f w ip i k) + dl col (f_ord f ip*f_d f+i) * upside (mdot ip) 1 0))))
   (fun row => sumn (f_npf f) (fun ip => sumn (f_d f) (fun i => - (dl row (f_ord f ip*f_d f+i) *
        (v_F f w u ip i - f_n f ip i * v_Fn f w u ip + edge_adv f w u (mdot ip) ip i))))).
Proof.
  unfold momentum_open_edge. apply eff_loop. clear s. intros ip s Hip.
  eapply eff_ext; [eapply eff_trans; [apply mom_open_visc_eff|apply mom_open_adv_eff]| |].
  - intros row col. cbv beta. rewrite <- sumn_plus. apply sumn_ext. intros i _. ring.
  - intros row. cbv beta. rewrite <- sumn_plus. apply sumn_ext. intros i _. ring.
Qed.

(* ---------------------------------------------------------------- scalar, element *)
Definition elem_q (f : fe) (o : oupw) (G : nat -> nat -> R) (q : nat -> R) (ip : nat) : R :=
  ou_pec o ip*(ou_alphaUpw o * oqUpw f o G q ip + (1 - ou_alphaUpw o)*at_face_adv f q ip) + (1 - ou_pec o ip)*at_face_adv f q ip.
Definition elem_row (f : fe) (o : oupw) (ip j : nat) : R :=
  ou_pec o ip*ou_alphaUpw o*dl j (f_nn f ip)
  + (ou_pec o ip*(1 - ou_alphaUpw o) + (1 - ou_pec o ip))*sumn (f_npf f) (fun ic => dl j (f_ord f ic) * f_Na f ip ic).
Lemma scalar_open_elem_eff f o G mdot q qE s :
  eff s (scalar_open_elem f o G mdot q qE s)
   (fun i j => sumn (f_ip f) (fun ip => dl i (f_nn f ip) * upside (mdot ip) (elem_row f o ip j) 0))
   (fun i => sumn (f_ip f) (fun ip => - (dl i (f_nn f ip) * upside (mdot ip) (elem_q f o G q ip) (at_face_adv f qE ip)))).
Proof.
  unfold scalar_open_elem. apply eff_loop. clear s. intros ip s Hip. cbv zeta.
  set (lv := if Rlt_dec 0 (mdot ip) then 1 else 0).
  eapply eff_ext.
  - eapply eff_trans; [|eff1].
    eapply eff_trans; [|apply (eff_loop (f_npf f) _ (fun ic i j => dl i (f_nn f ip) * (mdot ip*(ou_pec o ip*(1 - ou_alphaUpw o) + (1 - ou_pec o ip))*lv * (dl j (f_ord f ic) * f_Na f ip ic))) (fun _ _ => 0))].
    + effs.
    + intros ic s1 Hic. eapply eff_ext; [effs| |]; intros; cbv beta; ring.
  - intros i j. cbv beta. rewrite sumn_scal, sumn_scal. unfold elem_row, upside, lv. destruct (Rlt_dec 0 (mdot ip)); ring.
  - intros i. cbv beta. rewrite sumn_zero by (intros; reflexivity). unfold elem_q, upside, lv. destruct (Rlt_dec 0 (mdot ip)); ring.
Qed.

(* ---------------------------------------------------------------- continuity, element *)
Lemma continuity_open_elem_eff f pen tau c s :
  eff s (continuity_open_elem f pen tau c s)
   (fun i j => sumn (f_ip f) (fun ip => dl i (f_nn f ip) *
      (pen*invL f ip*f_amag f ip*sumn (f_npf f) (fun ic => dl j (f_ord f ic) * f_N f ip ic)
       + sumn (f_npe f) (fun ic => dl j ic * sumn (f_d f) (fun k => - f_dnl f ip ic k * f_A f ip k)))))
   (fun i => sumn (f_ip f) (fun ip => - (dl i (f_nn f ip) * (mdot_open_elem f pen tau c ip/tau)))).
Proof.
  unfold continuity_open_elem. apply eff_loop. clear s. intros ip s Hip. cbv zeta.
  match goal with |- context [addB _ (- (?x/tau)) _] => change x with (mdot_open_elem f pen tau c ip) end.
  eapply eff_ext.
  - eapply eff_trans; [|eff1].
    eapply eff_trans; [|apply (eff_loop (f_npe f) _ (fun ic i j => dl i (f_nn f ip) * (dl j ic * sumn (f_d f) (fun k => - f_dnl f ip ic k * f_A f ip k))) (fun _ _ => 0))].
    + apply (eff_loop (f_npf f) _ (fun ic i j => dl i (f_nn f ip) * (pen*invL f ip*f_amag f ip * (dl j (f_ord f ic) * f_N f ip ic))) (fun _ _ => 0)).
      intros ic s1 Hic. eapply eff_ext; [effs| |]; intros; cbv beta; ring.
    + intros ic s1 Hic. eapply eff_ext; [effs| |]; intros; cbv beta; ring.
  - intros i j. cbv beta. rewrite !sumn_scal. ring.
  - intros i. cbv beta. rewrite !sumn_zero by (intros; reflexivity). ring.
Qed.
Lemma continuity_inflow_eff f tau rho ubc s :
  eff s (continuity_inflow f tau rho ubc s) (fun _ _ => 0)
   (fun i => sumn (f_ip f) (fun ip => - (dl i (f_nn f ip) * (mdot_inflow f rho ubc ip/tau)))).
Proof.
  unfold continuity_inflow. eapply eff_loop_ext with (A := fun _ _ _ => 0).
  - intros ip s1 Hip. eapply eff_ext; [effs| |]; intros; cbv beta; [reflexivity|]. instantiate (1 := fun ip i => - (dl i (f_nn f ip) * (mdot_inflow f rho ubc ip/tau))). cbv beta. ring.
  - intros. apply sumn_zero. reflexivity.
  - reflexivity.
Qed.

(* ---------------------------------------------------------------- momentum, element *)
Lemma sum_off d i g : (i < d)%nat -> g i + sumn d (fun l => off i l (g l)) = sumn d g.
Proof.
  intros Hi. rewrite (sumn_ext d g (fun l => dl l i * g l + off i l (g l))).
  - rewrite sumn_plus, sumn_dl by assumption. reflexivity.
  - intros l _. unfold dl, off. rewrite (Nat.eqb_sym l i). destruct (Nat.eqb i l); ring.
Qed.
(** tangential (open) or normal (symmetry) projector *)
Definition pj (open : bool) (n : nat -> R) (i l : nat) : R := if open then dl l i - n i * n l else n i * n l.
(** what multiplies the div(u) stress in the code *)
Definition pjd (open : bool) (n : nat -> R) (i l : nat) : R := if Nat.eqb i l then pj open n i i else n i * n l.
(** column coefficient of the full stress component l, and the stress component itself *)
Definition scol (f : fe) (mu : R) (ip l col : nat) : R :=
  sumn (f_npe f) (fun ic => sumn (f_d f) (fun j =>
    - mu*f_dn f ip ic j*f_A f ip j * dl col (ic*f_d f+l) + - mu*f_dn f ip ic l*f_A f ip j * dl col (ic*f_d f+j))).
Definition stress (f : fe) (mu : R) (u : nat -> R) (ip l : nat) : R :=
  sumn (f_npe f) (fun ic => sumn (f_d f) (fun j =>
    - mu*f_dn f ip ic j*f_A f ip j * u (ic*f_d f+l)%nat + - mu*f_dn f ip ic l*f_A f ip j * u (ic*f_d f+j)%nat)).
Definition divterm (f : fe) (mu incl : R) (u : nat -> R) (ip : nat) : R :=
  sumn (f_npe f) (fun ic => sumn (f_d f) (fun j => 2/3*mu*f_dn f ip ic j*u (ic*f_d f+j)%nat*f_A f ip j*incl)).

Lemma sumn3 a b c (g : nat -> nat -> nat -> R) :
  sumn a (fun x => sumn b (fun y => sumn c (fun z => g x y z))) = sumn c (fun z => sumn a (fun x => sumn b (fun y => g x y z))).
Proof.
  rewrite (sumn_ext a _ (fun x => sumn c (fun z => sumn b (fun y => g x y z)))) by (intros; apply sumn_swap).
  apply sumn_swap.
Qed.

Lemma mom_visc_elem_eff open f mu incl u ip s :
  eff s (mom_visc_elem open f mu incl u ip s)
   (fun row col => sumn (f_d f) (fun i => dl row (f_nn f ip*f_d f+i) * sumn (f_d f) (fun l => pj open (f_n f ip) i l * scol f mu ip l col)))
   (fun row => sumn (f_d f) (fun i => - (dl row (f_nn f ip*f_d f+i) *
       (sumn (f_d f) (fun l => pj open (f_n f ip) i l * stress f mu u ip l)
        + divterm f mu incl u ip * sumn (f_d f) (fun l => pjd open (f_n f ip) i l))))).
Proof.
  unfold mom_visc_elem. cbv zeta. set (d := f_d f). set (nR := f_nn f ip). set (n := f_n f ip). set (A := f_A f ip).
  set (K := fun ic j l col => - mu*f_dn f ip ic j*A j * dl col (ic*d+l) + - mu*f_dn f ip ic l*A j * dl col (ic*d+j)).
  set (T := fun ic j l => - mu*f_dn f ip ic j*A j * u (ic*d+l)%nat + - mu*f_dn f ip ic l*A j * u (ic*d+j)%nat).
  set (D := fun ic j => 2/3*mu*f_dn f ip ic j*u (ic*d+j)%nat*A j*incl).
  eapply eff_loop_ext with
    (A := fun ic row col => sumn d (fun j => sumn d (fun i => dl row (nR*d+i) * sumn d (fun l => pj open n i l * K ic j l col))))
    (b := fun ic row => sumn d (fun j => sumn d (fun i => - (dl row (nR*d+i) * (sumn d (fun l => pj open n i l * T ic j l) + D ic j * sumn d (fun l => pjd open n i l)))))).
  - clear s. intros ic s Hic.
    apply (eff_loop d _ (fun j row col => sumn d (fun i => dl row (nR*d+i) * sumn d (fun l => pj open n i l * K ic j l col)))
       (fun j row => sumn d (fun i => - (dl row (nR*d+i) * (sumn d (fun l => pj open n i l * T ic j l) + D ic j * sumn d (fun l => pjd open n i l)))))).
    clear s. intros j s Hj.
    apply (eff_loop d _ (fun i row col => dl row (nR*d+i) * sumn d (fun l => pj open n i l * K ic j l col))
       (fun i row => - (dl row (nR*d+i) * (sumn d (fun l => pj open n i l * T ic j l) + D ic j * sumn d (fun l => pjd open n i l))))).
    clear s. intros i s Hi.
    eapply eff_ext.
    + eapply eff_trans; [|apply (eff_loop d _ (fun l row col => dl row (nR*d+i) * off i l (pj open n i l * K ic j l col))
         (fun l row => - (dl row (nR*d+i)) * off i l (pj open n i l * T ic j l + D ic j * pjd open n i l)))].
      * effs.
      * intros l s1 Hl. unfold off. destruct (Nat.eqb_spec i l) as [E|E].
        -- eapply eff_ext; [apply eff_refl| |]; intros; cbv beta; ring.
        -- assert (E1 : dl l i = 0) by (unfold dl; destruct (Nat.eqb_spec l i); congruence).
           assert (E2 : pjd open n i l = n i * n l) by (unfold pjd; destruct (Nat.eqb_spec i l); congruence).
           rewrite E2. unfold pj, K, T, D. rewrite E1.
           destruct open; (eapply eff_ext; [effs| |]; intros; cbv beta; ring).
    + intros row col. cbv beta. rewrite sumn_scal.
      rewrite <- (sum_off d i (fun l => pj open n i l * K ic j l col)) by assumption.
      unfold pj at 2. unfold K at 2. rewrite (proj2 (Nat.eqb_eq i i) eq_refl) || idtac.
      assert (E1 : dl i i = 1) by (unfold dl; rewrite Nat.eqb_refl; reflexivity). rewrite E1.
      destruct open; ring.
    + intros row. cbv beta. rewrite sumn_scal.
      rewrite <- (sum_off d i (fun l => pj open n i l * T ic j l)) by assumption.
      rewrite <- (sum_off d i (fun l => pjd open n i l)) by assumption.
      rewrite (sumn_ext d (fun l => off i l (_ + _)) (fun l => off i l (pj open n i l * T ic j l) + D ic j * off i l (pjd open n i l)))
        by (intros; unfold off; destruct (Nat.eqb i j0); ring).
      rewrite sumn_plus, sumn_scal.
      assert (E1 : dl i i = 1) by (unfold dl; rewrite Nat.eqb_refl; reflexivity).
      assert (E2 : pjd open n i i = pj open n i i) by (unfold pjd; rewrite Nat.eqb_refl; reflexivity). rewrite E2.
      replace (pj open n i i) with (if open then 1 - n i * n i else n i * n i) by (unfold pj; rewrite E1; reflexivity).
      unfold T at 2. unfold D at 2. unfold D. destruct open; ring.
  - intros row col. cbv beta.
    rewrite (sumn3 (f_npe f) d d). apply sumn_ext. intros i _.
    rewrite (sumn_ext (f_npe f) _ (fun ic => dl row (nR*d+i) * sumn d (fun j => sumn d (fun l => pj open n i l * K ic j l col)))) by (intros; apply sumn_scal).
    rewrite sumn_scal. f_equal. rewrite (sumn3 (f_npe f) d d). apply sumn_ext. intros l _. unfold scol.
    rewrite <- sumn_scal. apply sumn_ext. intros ic _. rewrite <- sumn_scal. reflexivity.
  - intros row. cbv beta.
    rewrite (sumn3 (f_npe f) d d). apply sumn_ext. intros i _.
    rewrite (sumn_ext (f_npe f) _ (fun ic => - dl row (nR*d+i) * (sumn d (fun j => sumn d (fun l => pj open n i l * T ic j l)) + sumn d (fun j => D ic j) * sumn d (fun l => pjd open n i l)))).
    + rewrite sumn_scal, sumn_plus, sumn_scal_r.
      replace (sumn (f_npe f) (fun ic => sumn d (fun j => sumn d (fun l => pj open n i l * T ic j l)))) with (sumn d (fun l => pj open n i l * stress f mu u ip l)).
      * unfold divterm. fold d A. unfold D. ring.
      * rewrite (sumn3 (f_npe f) d d). apply sumn_ext. intros l _. unfold stress.
        rewrite <- sumn_scal. apply sumn_ext. intros ic _. rewrite <- sumn_scal. reflexivity.
    + intros ic _. rewrite <- sumn_scal_r, <- sumn_plus, <- sumn_scal. apply sumn_ext. intros. ring.
Qed.

Definition elem_rhoB (f : fe) (w : vfields) (ip : nat) : R := at_face f (vf_rho w) ip.
Definition elem_mvc (f : fe) (w : vfields) (ip : nat) : R :=
  sumn (f_d f) (fun j => sumn (f_npf f) (fun ic => f_N f ip ic * vf_rho w (f_ord f ic) * vf_mv w (f_ord f ic*f_d f+j)%nat) * f_A f ip j).
Definition elem_bc (f : fe) (w : vfields) (ip j : nat) : R := at_face_adv f (fun a => vf_bc w (a*f_d f+j)%nat) ip.
Definition elem_u (f : fe) (o : oupw) (w : vfields) (u : nat -> R) (ip i : nat) : R :=
  let ui := at_face_adv f (fun a => u (a*f_d f+i)%nat) ip in
  let duR := fold_left (fun a j => a + (of_xb f o ip j - ou_x o (f_nn f ip*f_d f+j)%nat) * vf_G w (f_ord f (f_lf f ip)) i j * ou_hoUpw o) (seq 0 (f_d f)) 0 in
  ou_pec o ip*(ou_alphaUpw o*(u (f_nn f ip*f_d f+i)%nat + duR) + (1 - ou_alphaUpw o)*ui) + (1 - ou_pec o ip)*ui.
Definition elem_adv (f : fe) (o : oupw) (w : vfields) (u : nat -> R) (tm : R) (ip i : nat) : R :=
  upside tm (elem_u f o w u ip i)
    (uent f w (elem_rhoB f w ip) (elem_mvc f w ip) tm ip * f_n f ip i
     + (elem_bc f w ip i - sumn (f_d f) (fun j => elem_bc f w ip j * f_n f ip j) * f_n f ip i)).
Definition elem_urow (f : fe) (o : oupw) (ip i col : nat) : R :=
  ou_pec o ip*ou_alphaUpw o*dl col (f_nn f ip*f_d f+i)
  + (ou_pec o ip*(1 - ou_alphaUpw o) + (1 - ou_pec o ip))*sumn (f_npf f) (fun ic => dl col (f_ord f ic*f_d f+i) * f_Na f ip ic).
Lemma mom_open_adv_elem_eff f o w mdot u ip s :
  eff s (mom_open_adv_elem f o w mdot u ip s)
   (fun row col => sumn (f_d f) (fun i => dl row (f_nn f ip*f_d f+i) * upside (mdot ip) (elem_urow f o ip i col) 0))
   (fun row => sumn (f_d f) (fun i => - (dl row (f_nn f ip*f_d f+i) * elem_adv f o w u (mdot ip) ip i))).
Proof.
  unfold mom_open_adv_elem. cbv zeta. apply eff_loop. clear s. intros i s Hi.
  set (lv := if Rlt_dec 0 (mdot ip) then 1 else 0).
  eapply eff_ext.
  - eapply eff_trans; [|eff1].
    eapply eff_trans; [|apply (eff_loop (f_npf f) _ (fun ic row col => dl row (f_nn f ip*f_d f+i) * (mdot ip*(ou_pec o ip*(1 - ou_alphaUpw o) + (1 - ou_pec o ip))*lv * (dl col (f_ord f ic*f_d f+i) * f_Na f ip ic))) (fun _ _ => 0))].
    + effs.
    + intros ic s1 Hic. eapply eff_ext; [effs| |]; intros; cbv beta; ring.
  - intros row col. cbv beta. rewrite sumn_scal, sumn_scal. unfold elem_urow, upside, lv. destruct (Rlt_dec 0 (mdot ip)); ring.
  - intros row. cbv beta. rewrite sumn_zero by (intros; reflexivity). unfold elem_adv, elem_u, elem_bc, elem_rhoB, elem_mvc, uent, upside, lv. destruct (Rlt_dec 0 (mdot ip)); ring.
Qed.
Lemma momentum_open_elem_eff f o w mdot u s :
  eff s (momentum_open_elem f o w mdot u s)
   (fun row col => sumn (f_ip f) (fun ip => sumn (f_d f) (fun i => dl row (f_nn f ip*f_d f+i) *
      (upside (mdot ip) (elem_urow f o ip i col) 0 + sumn (f_d f) (fun l => pj true (f_n f ip) i l * scol f (at_face f (vf_mu w) ip) ip l col)))))
   (fun row => sumn (f_ip f) (fun ip => sumn (f_d f) (fun i => - (dl row (f_nn f ip*f_d f+i) *
      (elem_adv f o w u (mdot ip) ip i + (sumn (f_d f) (fun l => pj true (f_n f ip) i l * stress f (at_face f (vf_mu w) ip) u ip l)
        + divterm f (at_face f (vf_mu w) ip) (vf_incl w) u ip * sumn (f_d f) (fun l => pjd true (f_n f ip) i l))))))).
Proof.
  unfold momentum_open_elem. apply eff_loop. clear s. intros ip s Hip.
  eapply eff_ext; [eapply eff_trans; [apply mom_open_adv_elem_eff|apply mom_visc_elem_eff]| |].
  - intros row col. cbv beta. rewrite <- sumn_plus. apply sumn_ext. intros i _. ring.
  - intros row. cbv beta. rewrite <- sumn_plus. apply sumn_ext. intros i _. ring.
Qed.
Lemma momentum_sym_elem_eff f mu incl u s :
  eff s (momentum_sym_elem f mu incl u s)
   (fun row col => sumn (f_ip f) (fun ip => sumn (f_d f) (fun i => dl row (f_nn f ip*f_d f+i) *
      sumn (f_d f) (fun l => pj false (f_n f ip) i l * scol f (at_face f mu ip) ip l col))))
   (fun row => sumn (f_ip f) (fun ip => sumn (f_d f) (fun i => - (dl row (f_nn f ip*f_d f+i) *
      (sumn (f_d f) (fun l => pj false (f_n f ip) i l * stress f (at_face f mu ip) u ip l)
        + divterm f (at_face f mu ip) incl u ip * sumn (f_d f) (fun l => pjd false (f_n f ip) i l)))))).
Proof. unfold momentum_sym_elem. apply eff_loop. intros ip s1 Hip. apply mom_visc_elem_eff. Qed.
