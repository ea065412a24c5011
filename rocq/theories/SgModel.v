(* Model of savitzky_golay and savitzky_golay_piecewise (src/wafo/interpolate.py:18-173) over exact reals.  pinv stands for numpy's
   pseudo-inverse; y is an array with one axis; deriv is not negative. *)
From Coq Require Import Reals List ZArith Bool.
From Verif Require Import Base.
Import ListNotations.
Local Open Scope R_scope.

Definition matrix := nat -> nat -> R.
Definition total (l : list R) : R := fold_right Rplus 0 l.
(* 21-25 _check_window_size *)
Definition check_window_size (w min_size : nat) : res unit :=
  if negb (w mod 2 =? 1)%nat || (w <? 1)%nat then Err TypeError else if (w <? min_size)%nat then Err TypeError else Ok tt.
(* np.convolve(a, b, mode='valid') *)
Definition convolve_valid (a b : list R) : list R :=
  let '(s, l) := if (List.length a <=? List.length b)%nat then (a, b) else (b, a) in
  let n := List.length s in
  map (fun k => total (map (fun j => nth j s 0 * nth (k + n - 1 - j) l 0) (seq 0 n))) (seq 0 (List.length l - n + 1)).
(* 97-98: the matrix of powers, rows from -half to half *)
Definition powers (half : nat) : matrix := fun r i => (INR r - INR half) ^ i.
(* 102-104: padding *)
Definition padded (y : list R) (half : nat) : list R :=
  let n := List.length y in
  let y0 := nth 0 y 0 in
  let yl := last y 0 in
  map (fun v => y0 - Rabs (v - y0)) (rev (firstn half (skipn 1 y))) ++ y ++ map (fun v => yl + Rabs (v - yl)) (rev (skipn (n - 1 - half) (firstn (n - 1) y))).
(* 28-105 savitzky_golay; pinv rows columns b *)
Definition savitzky_golay (pinv : nat -> nat -> matrix -> matrix) (y : list R) (window_size order : Z) (deriv : nat) : res (list R) :=
  let w := Z.abs_nat window_size in
  let n := Z.abs_nat order in
  let* _ := check_window_size w (n + 2) in
  let half := ((w - 1) / 2)%nat in
  if (n <? deriv)%nat then Err IndexError else
  let m := map (pinv w (n + 1)%nat (powers half) deriv) (seq 0 w) in
  match y with
  | [] => Err IndexError
  | _ => Ok (convolve_valid m (padded y half))
  end.
(* 108-125 _get_turnpoint *)
Definition ltb_R (a b : R) : bool := if Rlt_dec a b then true else false.
Definition get_turnpoint (x : list R) : res nat :=
  match x with
  | x0 :: x1 :: _ =>
      let compare := if ltb_R x0 x1 then ltb_R else fun a b => ltb_R b a in
      Ok (match find (fun i => compare (nth i x 0) (nth (i - 1) x 0)) (seq 1 (List.length x - 1)) with Some i => i | None => 0%nat end)
  | _ => Err IndexError
  end.
(* 128-173 savitzky_golay_piecewise; the calls nest at most as deep as x is long *)
Fixpoint piecewise (fuel : nat) (pinv : nat -> nat -> matrix -> matrix) (x data : list R) (kernel order : Z) : res (list R) :=
  match fuel with
  | O => Err OutOfFuel
  | S fuel =>
      let* t := get_turnpoint x in
      if (t =? 0)%nat then savitzky_golay pinv data kernel order 0 else
      let* first := savitzky_golay pinv (firstn t data) kernel order 0 in
      let* rest := piecewise fuel pinv (skipn t x) (skipn t data) kernel order in
      Ok (first ++ rest)
  end.
Definition savitzky_golay_piecewise (pinv : nat -> nat -> matrix -> matrix) (x data : list R) (kernel order : Z) : res (list R) :=
  piecewise (S (List.length x)) pinv x data kernel order.
