(** Specification vocabulary for time averages: weighted means and covariances over a list of
    (weight, sample) pairs, averaging windows, exponential weights.  Nothing here refers to the
    update formulas of the code. *)
Require Import Reals List Lra.
From Verif Require Import Avg_Model.
Import ListNotations.
Open Scope R_scope.

Definition wlist := list (R * sample).

(** sum of w * f(s) *)
Fixpoint wsum (W : wlist) (f : sample -> R) : R :=
  match W with nil => 0 | (w, s) :: W' => w * f s + wsum W' f end.

(** weighted mean *)
Definition wmean (W : wlist) (f : sample -> R) : R := wsum W f / wsum W (fun _ => 1).

(** weighted covariance: mean of the product minus product of the means *)
Definition wcov (W : wlist) (f g : sample -> R) : R :=
  wmean W (fun s => f s * g s) - wmean W f * wmean W g.

(** the same list with every weight multiplied by the sample's density (Favre averages) *)
Definition favre (W : wlist) : wlist := map (fun p => (fst p * smp_rho (snd p), snd p)) W.

(** samples weighted by their own step size *)
Definition by_dt (w : list sample) : wlist := map (fun s => (smp_dt s, s)) w.

Definition total_dt (w : list sample) : R := fold_right (fun s a => smp_dt s + a) 0 w.

(** Averaging windows of the "nalu_classic" mode: a sample joins the window unless the window would
    become longer than the interval, or a reset was requested; then it starts a new window. *)
Definition window_step (T start : R) (fw : bool * list sample) (e : event) : bool * list sample :=
  match e with
  | Restart f => (f, snd fw)                                     (* window carried over by a restart *)
  | Step s =>
      if Rlt_dec (smp_time s) start then fw                      (* averaging not started yet *)
      else if fst fw then (false, [s])                           (* requested reset *)
      else if Rlt_dec T (total_dt (snd fw) + smp_dt s) then (false, [s])   (* interval exceeded *)
      else (false, snd fw ++ [s])
  end.
Definition window (T start : R) (forced0 : bool) (h : list event) : list sample :=
  snd (fold_left (window_step T start) h (forced0, nil)).

(** Exponential window of length T: [t] is the time already averaged before the list. *)
Fixpoint decay (T t : R) (l : list sample) : R :=
  match l with
  | nil => 1
  | s :: l' => (1 - smp_dt s / Rmin T (t + smp_dt s)) * decay T (t + smp_dt s) l'
  end.
Fixpoint exp_weights (T t : R) (l : list sample) : wlist :=
  match l with
  | nil => nil
  | s :: l' => (smp_dt s / Rmin T (t + smp_dt s) * decay T (t + smp_dt s) l', s)
               :: exp_weights T (t + smp_dt s) l'
  end.
