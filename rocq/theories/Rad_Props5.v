(** C64: concrete cases meeting the hypotheses. *)
From Coq Require Import Reals List Bool Arith Lia Lra Psatz.
From Verif Require Import RUtil Edge_Model Edge_Proofs Edge_Props Elem_Model Rad_Model Rad_Props Rad_Props2 Rad_Props3 Rad_Props4.
Import ListNotations.
Local Open Scope R_scope.

(** the two-cell slab between walls normal to x *)
Lemma slab_closed : forall i, closed_cv ex_es ex_bs i.
Proof. intros [|[|i]] [|j]; unfold lsum, ex_es, ex_bs; cbn; lra. Qed.
Lemma slab_unity : forall b, In b ex_bs -> lsum fst (b_N b) = 1.
Proof. intros b [<-|[<-|[]]]; unfold lsum; cbn; lra. Qed.

(** a solver that is not trivial: it returns the residual itself as the increment *)
Definition ex_solve (k : scheme) (f : (nat -> R) -> (nat -> R) -> rfields) : (nat -> R) -> (nat -> R) -> ordn -> (nat -> R) -> nat -> R :=
  fun Ibc G o J i => rad_rhs k false 3 (od_S o) (f Ibc G) ex_es ex_bs J i.
Example C64_enclosure_nonvacuous :
  (forall b, In b ex_bs -> lsum fst (b_N b) = 1) /\ (forall i, closed_cv ex_es ex_bs i)
  /\ (forall k f, zero_on_zero k false 3 ex_es ex_bs f (ex_solve k f))
  /\ (let b := mkBip 1 (ex_v 1) [(1, 1%nat)] in In b ex_bs /\ (forall b', In b' ex_bs -> b_nn b' = b_nn b -> b' = b) /\ NoDup ex_bs
      /\ b_A b 0%nat = 1 /\ b_A b 1%nat = 0 /\ b_A b 2%nat = 0).
Proof.
  split; [exact slab_unity|split; [exact slab_closed|split]].
  - intros k f Ibc G o J H i. apply H.
  - cbv zeta. split; [right; left; reflexivity|]. split; [|split; [|repeat split]].
    + intros b' [<-|[<-|[]]]; cbn; [discriminate|reflexivity].
    + repeat constructor; cbn; [intros [E|[]]; discriminate|intros []].
Qed.

(** forward substitution solves the upwind equations of the slab for the ordinate (1,0,0) *)
Definition slab_f (Ibc G : nat -> R) : rfields :=
  mkRF (fun i => ex_v (INR i)) (fun _ => 1) (fun _ => 1) G (fun _ => 1) (fun _ => 1) Ibc.
Definition slab_o : ordn := mkOrd (ex_v 1) 1.
Definition slab_solve (Ibc G : nat -> R) (o : ordn) (J : nat -> R) : nat -> R :=
  let r i := rad_rhs Upwind true 3 (od_S o) (slab_f Ibc G) ex_es ex_bs J i in
  fun i => match i with O => r 0%nat / 3 | 1%nat => (r 1%nat + r 0%nat / 3) / 3 | _ => 0 end.
Example C64_scattering_nonvacuous :
  covers [0;1]%nat ex_es /\ bips_on [0;1]%nat ex_bs
  /\ (forall Ibc G J k, In k [0;1]%nat ->
      lsum (fun j => rad_lhs Upwind 3 (od_S slab_o) (slab_f Ibc G) ex_es ex_bs J k j * slab_solve Ibc G slab_o J j) [0;1]%nat
      = rad_rhs Upwind true 3 (od_S slab_o) (slab_f Ibc G) ex_es ex_bs J k)
  /\ (forall a, r_src (slab_f (fun _ => 1) (fun _ => 0)) a + r_mus (slab_f (fun _ => 1) (fun _ => 0)) a * (4 * PI * 1) / (4 * PI)
       = (r_mua (slab_f (fun _ => 1) (fun _ => 0)) a + r_mus (slab_f (fun _ => 1) (fun _ => 0)) a) * 1).
Proof.
  pose proof PI_RGT_0 as HPI.
  split; [|split; [|split]].
  - split; [repeat constructor; cbn; lia|]. intros e [<-|[]]. cbn. auto.
  - intros b [<-|[<-|[]]]; cbn; split; auto; intros p [<-|[]]; cbn; auto.
  - intros Ibc G J k Hk. unfold slab_solve. cbv zeta.
    set (r0 := rad_rhs Upwind true 3 (od_S slab_o) (slab_f Ibc G) ex_es ex_bs J 0).
    set (r1 := rad_rhs Upwind true 3 (od_S slab_o) (slab_f Ibc G) ex_es ex_bs J 1).
    assert (E1 : sjaj 3 (ex_v 1) (ex_v 1) = 1) by (unfold sjaj, sumn; cbn; ring).
    assert (E2 : sjaj 3 (ex_v 1) (ex_v (-1)) = -1) by (unfold sjaj, sumn; cbn; ring).
    assert (A1 : Rabs 1 = 1) by (apply Rabs_right; lra).
    assert (L : forall i j, rad_lhs Upwind 3 (od_S slab_o) (slab_f Ibc G) ex_es ex_bs J i j
       = match i, j with O, O => 3 | 1%nat, O => -1 | 1%nat, 1%nat => 3 | O, 1%nat => 0 | _, _ => rad_lhs Upwind 3 (od_S slab_o) (slab_f Ibc G) ex_es ex_bs J i j end).
    { intros [|[|i]] [|[|j]]; try reflexivity; unfold rad_lhs; rewrite lhs_lsum; unfold lsum, ex_es, ex_bs, wall_lhs, node_lhs, add_lhs;
        cbn [slab_o od_S edge_op rad_edge_upwind s00 s01 s10 s11 map fold_right fold_left b_nn b_A b_N eL eR eA Nat.eqb fst snd andb slab_f r_mua r_mus r_vol];
        cbv zeta; rewrite ?E1, ?E2, ?A1;
        repeat match goal with |- context [Rlt_dec ?a ?b] => destruct (Rlt_dec a b); [try lra|try lra] end; lra. }
    unfold lsum. cbn [map fold_right]. destruct Hk as [<-|[<-|[]]]; rewrite !L; [fold r0|fold r1]; field.
  - intros a. cbn [slab_f r_src r_mus r_mua]. field. lra.
Qed.
