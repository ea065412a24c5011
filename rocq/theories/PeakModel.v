(* Model of findpeaks (src/wafo/misc.py:1138-1232).  Samples are integers; min_h and min_p are fractions with a positive denominator; argsort is
   a parameter, since numpy leaves the order of equal values open. *)
From Coq Require Import String.
From Verif Require Import Base CrossModel RfcModel.
Local Open Scope list_scope.
Local Open Scope Z_scope.

Inductive data := Vec (x : list Z) | Mat (rows : list (list Z)).
(* 1188: np.atleast_2d, flattened for take *)
Definition flat (d : data) : list Z := match d with Vec x => x | Mat rows => concat rows end.
(* 1183, 1185: max and min of the whole array *)
Definition amax (l : list Z) : res Z := match l with [] => Err ValueError | a :: l => Ok (fold_left Z.max l a) end.
Definition amin (l : list Z) : res Z := match l with [] => Err ValueError | a :: l => Ok (fold_left Z.min l a) end.
(* 1196-1200: the maxima of one row.  The row and the threshold are multiplied with the denominator of min_h; comparisons do not change.  None
   from findtp makes len raise TypeError.  mem, m and method as in findtp of RfcModel *)
Definition row_peaks (mem : list Z) (m : impl) (method : option nat) (h : Z * Z) (x : list Z) : res (list nat) :=
  let* tp := findtp mem m method (map (Z.mul (snd h)) x) (fst h) None in
  match tp with
  | None => Err TypeError
  | Some [] => let* a := argmax x in Ok [a]
  | Some tp => Ok (step2 1 tp)
  end.
(* 1203-1209: higher than the rows beside it *)
Definition above (rows : list (list Z)) (a b e : nat) : bool := nth e (nth b rows []) 0 <? nth e (nth a rows []) 0.
Definition stands_out (rows : list (list Z)) (iy : nat) (e : nat) : bool :=
  if (iy =? 0)%nat then above rows iy (iy + 1) e
  else if (iy =? List.length rows - 1)%nat then above rows iy (iy - 1) e
  else above rows iy (iy - 1) e && above rows iy (iy + 1) e.
(* 1195-1212 for the rows iy, iy + 1, ...: linear indices; data1[iy + 1] of a single row raises IndexError *)
Fixpoint rows_peaks (mem : list Z) (m : impl) (method : option nat) (h : Z * Z) (rows : list (list Z)) (ncols iy : nat) (todo : list (list Z)) : res (list nat) :=
  match todo with
  | [] => Ok []
  | x :: todo =>
      let* ind := row_peaks mem m method h x in
      if (List.length rows =? 1)%nat then Err IndexError
      else
        let* rest := rows_peaks mem m method h rows ncols (S iy) todo in
        Ok (map (fun e => (e + iy * ncols)%nat) (filter (stands_out rows iy) ind) ++ rest)
  end.
(* l[:k] *)
Definition upto {A} (k : Z) (l : list A) : list A := if k <? 0 then firstn (List.length l - Z.to_nat (- k)) l else firstn (Z.to_nat k) l.
(* 1138-1232 findpeaks *)
Definition findpeaks (mem : list Z) (m : impl) (method : option nat) (argsort : list Z -> list nat) (d : data) (n : Z) (min_h : option (Z * Z)) (min_p : Z * Z) : res (list nat) :=
  let* dmax := amax (flat d) in
  let* h := match min_h with
            | Some h => Ok h
            | None => let* dmin := amin (flat d) in Ok (dmax - dmin, 20)
            end in
  let* ind := match d with
              | Vec x => row_peaks mem m method h x
              | Mat rows => rows_peaks mem m method h rows (List.length (hd [] rows)) 0 rows
              end in
  match ind with
  | [] => Ok []
  | _ =>
      let height e := nth e (flat d) 0 in
      let ind2 := rev (argsort (map height ind)) in
      let ind := map (fun j => nth j ind 0%nat) (upto (Z.min n (Z.of_nat (List.length ind))) ind2) in
      Ok (if fst min_p >? 0 then filter (fun e => snd min_p * height e >? fst min_p * dmax) ind else ind)
  end.
(* an argsort for the cases: insertion, stable *)
Fixpoint put (key : nat -> Z) (a : nat) (l : list nat) : list nat :=
  match l with [] => [a] | b :: l' => if key a <=? key b then a :: l else b :: put key a l' end.
Definition stable_argsort (l : list Z) : list nat := fold_right (put (fun i => nth i l 0)) [] (seq 0 (List.length l)).
