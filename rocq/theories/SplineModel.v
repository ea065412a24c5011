(* Model of src/wafo/interpolate.py:466-675 (class SmoothSpline) over exact real numbers,
   for one-dimensional y.  The sparse matrices are modelled by their entries; the linear
   solver (scipy.sparse.linalg.spsolve) is library code: its result [s] is a parameter. *)
From Coq Require Import Reals.
From Verif Require Import Base PolyModel OrthoModel PPModel.
Local Open Scope R_scope.

Definition gap (x : list R) (i : nat) : R := at_R x (S i) - at_R x i.             (* dx[i] *)
Definition secant (x y : list R) (i : nat) : R := (at_R y (S i) - at_R y i) / gap x i. (* dydx[i] *)

(* interpolate.py:656-660 _compute_r: spdiags puts data[k][j] at row j - offset, column j *)
Definition ss_R (x : list R) (i j : nat) : R :=
  if (i =? S j)%nat then gap x (1 + j)
  else if (i =? j)%nat then 2 * (gap x j + gap x (1 + j))
  else if (S i =? j)%nat then gap x j
  else 0.
(* interpolate.py:647-653 _compute_qdq *)
Definition ss_Q (x : list R) (i j : nat) : R :=
  if (i =? j)%nat then / gap x j
  else if (i =? S j)%nat then - (/ gap x j + / gap x (1 + j))
  else if (i =? S (S j))%nat then / gap x (1 + j)
  else 0.
Definition ss_QDQ (x : list R) (var : nat -> R) (i j : nat) : R :=
  vsum (List.length x) (fun k => ss_Q x k i * var k * ss_Q x k j).
(* interpolate.py:663-666 _estimate_p; np.clip(p, 0, 1) *)
Definition clip (v a b : R) : R := Rmin (Rmax v a) b.
Definition ss_estimate_p (x : list R) (var : nat -> R) : R :=
  let N := (List.length x - 2)%nat in
  clip (1 / (1 + vsum N (fun i => ss_QDQ x var i i) / (100 * (vsum N (fun i => ss_R x i i)) ^ 2))) 0 1.
(* interpolate.py:589-590 *)
Definition ss_p (x : list R) (var : nat -> R) (p : option R) : R :=
  match p with
  | None => ss_estimate_p x var
  | Some p => if Rlt_dec p 0 then ss_estimate_p x var else if Rlt_dec 1 p then ss_estimate_p x var else p
  end.
(* interpolate.py:668-671 _compute_qq, 673-675: the matrix and right hand side of spsolve *)
Definition ss_QQ (x : list R) (var : nat -> R) (p : R) (i j : nat) : R :=
  6 * (1 - p) * ss_QDQ x var i j + p * ss_R x i j.
Definition ss_matrix (x : list R) (var : nat -> R) (p : R) (i j : nat) : R :=
  ss_QQ x var p i j + ss_QQ x var p j i.
Definition ss_rhs (x y : list R) (i : nat) : R := secant x y (S i) - secant x y i.
(* u = 2 * spsolve(...) *)
Definition ss_u (s : nat -> R) (i : nat) : R := 2 * s i.

(* interpolate.py:598-630 _poly_coefs *)
Definition padded (n : nat) (u : nat -> R) (i : nat) : R :=          (* vstack([0, u, 0]) *)
  match i with O => 0 | S i' => if (i' <? n - 2)%nat then u i' else 0 end.
Definition ss_g (x : list R) (u : nat -> R) (i : nat) : R :=
  (padded (List.length x) u (S i) - padded (List.length x) u i) * / gap x i.
Definition ss_Qu (x : list R) (u : nat -> R) (i : nat) : R :=
  (if (i <? List.length x - 1)%nat then ss_g x u i else 0) - (match i with O => 0 | S i' => ss_g x u i' end).
Definition ss_a (x y : list R) (var : nat -> R) (p : R) (u : nat -> R) (i : nat) : R :=
  if Rlt_dec p 1 then at_R y i - 6 * (1 - p) * (var i * ss_Qu x u i) else at_R y i.
Definition ss_c (n : nat) (p : R) (u : nat -> R) (i : nat) : R :=      (* vstack([ci, 0])[i] *)
  match i with O => 0 | S i' => if (i' <? n - 2)%nat then 3 * p * u i' else 0 end.
Definition ss_d (x : list R) (p : R) (u : nat -> R) (i : nat) : R :=
  (ss_c (List.length x) p u (S i) - ss_c (List.length x) p u i) * / gap x i / 3.
Definition ss_b (x y : list R) (var : nat -> R) (p : R) (u : nat -> R) (i : nat) : R :=
  (ss_a x y var p u (S i) - ss_a x y var p u i) * / gap x i
  - (ss_c (List.length x) p u i + ss_d x p u i * gap x i) * gap x i.
Definition ss_col (x y : list R) (var : nat -> R) (p : R) (u : nat -> R) (i : nat) : list R :=
  [ss_d x p u i; ss_c (List.length x) p u i; ss_b x y var p u i; ss_a x y var p u i].

(* interpolate.py:573-582 _spacing: x.argsort() (only used when some difference is negative) *)
Fixpoint insert_by (x : list R) (i : nat) (l : list nat) : list nat :=
  match l with
  | [] => [i]
  | j :: l' => if Rlt_dec (at_R x i) (at_R x j) then i :: l else j :: insert_by x i l'
  end.
Definition argsort (x : list R) : list nat :=
  fold_left (fun l i => insert_by x i l) (seq 0 (List.length x)) [].
Fixpoint exists_below (f : nat -> bool) (n : nat) : bool :=
  match n with O => false | S n' => f n' || exists_below f n' end.
Definition rlt (a b : R) : bool := if Rlt_dec a b then true else false.
Definition rle (a b : R) : bool := if Rle_dec a b then true else false.
Definition ss_spacing (x y : list R) : res (list R * list R) :=
  if exists_below (fun i => rlt (gap x i) 0) (List.length x - 1) then
    let ind := argsort x in
    if (List.length y <? List.length x)%nat then Err IndexError
    else Ok (map (at_R x) ind, map (at_R y) ind)
  else Ok (x, y).

(* interpolate.py:556-571 __init__ and _check, 632-645 _compute_coefs; [var] is not reordered
   together with x and y *)
Definition smooth_spline (x0 y0 : list R) (var : nat -> R) (p : option R) (lin_extrap : bool)
  (s : nat -> R) : res pp :=
  let* (x, y) := ss_spacing x0 y0 in
  let n := List.length x in
  if (n <? 2)%nat then Err ValueError
  else if exists_below (fun i => rle (gap x i) 0) (n - 1) then Err ValueError
  else if negb (n =? List.length y)%nat then Err ValueError
  else if (n =? 2)%nat then Err IndexError                    (* y[0, :] of a 1-D array *)
  else
    let cs := map (ss_col x y var (ss_p x var p) (ss_u s)) (seq 0 (n - 1)) in
    let* q := pp_new cs x 0 in
    if lin_extrap then pp_linear_extrapolate q else Ok q.
