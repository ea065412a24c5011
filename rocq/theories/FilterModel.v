(* Model of the Hodrick-Prescott and Hampel filters of src/wafo/sg_filter/_core.py over exact real numbers. *)
From Coq Require Import Reals.
From Verif Require Import Base PolyModel OrthoModel.
Local Open Scope R_scope.

(* ---- HodrickPrescott ------------------------------------------------------------------------------ *)
(* _core.py:761-769 _get_matrix: the five constant diagonals, then the assignments to the corners; n >= 4 *)
Definition hp_diags (w : R) (i j : nat) : R :=
  if (i =? S (S j))%nat then w else if (i =? S j)%nat then - 4 * w else if (i =? j)%nat then 6 * w + 1
  else if (S i =? j)%nat then - 4 * w else if (S (S i) =? j)%nat then w else 0.
Definition hp_set (A : nat -> nat -> R) (i0 j0 : nat) (v : R) (i j : nat) : R := if (i =? i0)%nat && (j =? j0)%nat then v else A i j.
Definition hp_matrix (n : nat) (w : R) : nat -> nat -> R :=
  let A := hp_diags w in
  let A := hp_set (hp_set A (n - 1) (n - 1) (1 + w)) 0 0 (1 + w) in
  let A := hp_set (hp_set A (n - 2) (n - 2) (1 + 5 * w)) 1 1 (1 + 5 * w) in
  hp_set (hp_set (hp_set (hp_set A (n - 1) (n - 2) (- 2 * w)) (n - 2) (n - 1) (- 2 * w)) 1 0 (- 2 * w)) 0 1 (- 2 * w).
(* _core.py:771-778 __call__; [spsolve] is the library's solver of n equations in n unknowns *)
Definition hodrick_prescott (spsolve : nat -> (nat -> nat -> R) -> (nat -> R) -> nat -> R) (w : R) (x : list R) : list R :=
  let n := List.length x in
  if (n <? 4)%nat then x else map (spsolve n (hp_matrix n w) (at_R x)) (seq 0 n).

(* ---- HampelFilter ---------------------------------------------------------------------------------- *)
(* np.median: the middle element of the sorted values or the mean of the two middle ones; of nothing it is NaN *)
Fixpoint insertR (x : R) (l : list R) : list R :=
  match l with [] => [x] | y :: l' => if Rle_dec x y then x :: l else y :: insertR x l' end.
Fixpoint sortR (l : list R) : list R := match l with [] => [] | x :: l' => insertR x (sortR l') end.
Definition median (l : list R) : R :=
  let s := sortR l in let n := List.length l in (at_R s ((n - 1) / 2) + at_R s (n / 2)) / 2.
(* _core.py:1126-1132 localwindow *)
Definition in_window (X : list R) (DX : R) (i j : nat) : bool :=
  (if Rle_dec (at_R X i - DX) (at_R X j) then true else false) && (if Rle_dec (at_R X j) (at_R X i + DX) then true else false).
Definition window (X Y : list R) (DX : R) (i : nat) : list R := map (at_R Y) (filter (in_window X DX i) (seq 0 (List.length Y))).
Definition localwindow (X Y : list R) (DX : R) (i : nat) : R * R :=
  let y := window X Y DX i in
  let Y0 := median y in (Y0, 14826 / 10000 * median (map (fun v => Rabs (v - Y0)) y)).
(* _core.py:1134-1140 smgauss *)
Definition smgauss (X V : list R) (DX : R) : list R :=
  map (fun k => vsum (List.length X) (fun j => exp (- ((at_R X j - at_R X k) / (2 * DX)) ^ 2) * at_R V j) /
                vsum (List.length X) (fun j => exp (- ((at_R X j - at_R X k) / (2 * DX)) ^ 2))) (seq 0 (List.length X)).
(* _core.py:1142-1161 the loop over j for one sample: windows of half width dx, 2 dx, ...; 0 / 0 is NaN and ends the loop;
   the temporary arrays have as many entries as there are samples *)
Fixpoint widen (X Y : list R) (dx adaptive : R) (i : nat) (fuel j : nat) (prev : R * R) : res (R * R) :=
  match fuel with
  | O => Err IndexError
  | S fuel' =>
    let cur := localwindow X Y (INR (j + 1) * dx) i in
    let go := match j with
              | O => true
              | S _ => if Req_EM_T (snd prev + snd cur) 0 then false
                       else if Rlt_dec adaptive (Rabs ((snd prev - snd cur) / (snd prev + snd cur) / 2)) then true else false
              end in
    if go then widen X Y dx adaptive i fuel' (S j) cur else Ok prev
  end.
Fixpoint all_ok {A} (l : list (res A)) : res (list A) :=
  match l with [] => Ok [] | r :: l' => let* x := r in let* t := all_ok l' in Ok (x :: t) end.
(* np.diff *)
Fixpoint diffR (l : list R) : list R := match l with a :: ((b :: _) as l') => (b - a) :: diffR l' | _ => [] end.
(* _core.py:1178-1183 _fixed and 1142-1170 _adaptive, for at least two samples: Y0 and S0 *)
Definition hampel_bounds (adaptive : option R) (X Y : list R) (dx : R) : res (list R * list R) :=
  let is := seq 0 (List.length Y) in
  match adaptive with
  | None => Ok (map (fun i => fst (localwindow X Y dx i)) is, map (fun i => snd (localwindow X Y dx i)) is)
  | Some ad =>
    let* t := all_ok (map (fun i => widen X Y dx ad i (List.length Y) 0 (0, 0)) is) in
    let DX := 2 * median (diffR X) in
    Ok (smgauss X (map fst t) DX, smgauss X (map snd t) DX)
  end.
(* _core.py:1194-1218 __call__ for float data with len(x) = len(y): the filtered values, the mask of the outliers and (Y0, S0);
   x defaults to 0, 1, 2, ...; a window width that is not positive (or NaN, the median of nothing) is refused;
   comparisons with the NaN bounds of a single sample are False *)
Definition hampel (dx : option R) (t : R) (adaptive : option R) (y : list R) (x : option (list R)) : res (list R * list bool * (list R * list R)) :=
  let X := match x with Some x => x | None => map INR (seq 0 (List.length y)) end in
  let dx := match dx with Some d => Some d | None => match diffR X with [] => None | d => Some (3 * median d) end end in
  match dx with
  | None => Err ValueError
  | Some dx =>
    if Rlt_dec 0 dx then
      if (List.length X <=? 1)%nat then Ok (y, map (fun _ => false) y, ([], []))
      else
        let* b := hampel_bounds adaptive X y dx in
        let out i := if Rlt_dec (t * at_R (snd b) i) (Rabs (at_R y i - at_R (fst b) i)) then true else false in
        let is := seq 0 (List.length y) in
        Ok (map (fun i => if out i then at_R (fst b) i else at_R y i) is, map out is, b)
    else Err ValueError
  end.
