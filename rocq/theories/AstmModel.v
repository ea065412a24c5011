(* Model of the ASTM rainflow counting: src/wafo/_misc_numba.py:474-620.
   Samples and times are integers.  Amplitudes, means and periods are kept without
   the factors 1/2 and 2 of the code, so that everything stays exact:
   r_range = 2*ampl, r_sum = 2*mean, r_half_period = period/2. *)
From Verif Require Import Base.
Local Open Scope Z_scope.

Record row3 := Row3 { r_range : Z; r_sum : Z; r_full : bool }.
(* an untouched row of np.zeros((n, 3)); its count column is 0, which no counted
   row has *)
Inductive cell3 := Counted3 (r : row3) | Zero3.

(* ---- _misc_numba.py:474-519  _findrfc3_astm ---------------------------------- *)
(* The array a[0..j] is kept reversed: st = [a[j]; a[j-1]; ...; a[0]].
   array_out has cap = n rows; rows are collected in reverse, a write behind the
   last row is an error. *)
Definition push3 (cap : nat) (rows : list row3) (r : row3) : res (list row3) :=
  if r_range r >? 0 then                                   (* if (ampl > 0) *)
    if (length rows <? cap)%nat then Ok (r :: rows) else Err MemoryError
  else Ok rows.

(* the while loop, lines 494-511 *)
Fixpoint reduce3 (fuel : nat) (cap : nat) (st : list Z) (rows : list row3) (c1 : nat)
  : res (list Z * list row3 * nat) :=
  match fuel with
  | O => Err OutOfFuel
  | S fuel' =>
      match st with
      | x :: y :: z :: rest =>
          if Z.abs (y - z) <=? Z.abs (x - y) then
            match rest with
            | [] =>                                          (* j == 2, lines 497-503 *)
                let* rows' := push3 cap rows (Row3 (Z.abs (y - z)) (y + z) false) in
                reduce3 fuel' cap [x; y] rows' c1
            | _ =>                                           (* lines 504-510 *)
                let* rows' := push3 cap rows (Row3 (Z.abs (y - z)) (y + z) true) in
                reduce3 fuel' cap (x :: rest) rows'
                  (if Z.abs (y - z) >? 0 then S c1 else c1)
            end
          else Ok (st, rows, c1)
      | _ => Ok (st, rows, c1)
      end
  end.

(* the for loop, lines 491-511; a has n entries, so a[j] never overflows *)
Fixpoint count3 (cap : nat) (xs : list Z) (st : list Z) (rows : list row3) (c1 : nat)
  : res (list Z * list row3 * nat) :=
  match xs with
  | [] => Ok (st, rows, c1)
  | x :: xs' =>
      let* s := reduce3 (S (S (length st))) cap (x :: st) rows c1 in
      let '(st', rows', c1') := s in count3 cap xs' st' rows' c1'
  end.

(* lines 513-520: the residue, read from the bottom of the stack *)
Fixpoint residue3 (cap : nat) (a : list Z) (rows : list row3) : res (list row3) :=
  match a with
  | u :: ((v :: _) as t) =>
      let* rows' := push3 cap rows (Row3 (Z.abs (u - v)) (u + v) false) in
      residue3 cap t rows'
  | _ => Ok rows
  end.

Definition findrfc3 (tp : list Z) : res (list row3 * nat) :=
  let n := length tp in
  let* s := count3 n tp [] [] 1 in
  let '(st, rows, c1) := s in
  let* rows' := residue3 n (rev st) rows in
  Ok (rev rows', c1).

(* a[:k] for a Python integer k *)
Definition upto {A} (l : list A) (k : Z) : list A :=
  if k <? 0 then firstn (Z.to_nat (Z.of_nat (length l) + k)) l else firstn (Z.to_nat k) l.

(* ---- _misc_numba.py:581-620  findrfc_astm, t is None -------------------------- *)
Definition findrfc_astm3 (tp : list Z) : res (list cell3) :=
  let n := length tp in
  let* r := findrfc3 tp in
  let '(rows, cnr) := r in
  let sig := map Counted3 rows ++ repeat Zero3 (n - length rows) in
  Ok (upto sig (Z.of_nat n - Z.of_nat cnr)).

(* ---- _misc_numba.py:522-578  _findrfc5_astm ----------------------------------- *)
Record row5 := Row5 { s_range : Z; s_sum : Z; s_full : bool; s_begin : Z; s_half_period : Z }.
Inductive cell5 := Counted5 (r : row5) | Zero5.

Definition push5 (cap : nat) (rows : list row5) (r : row5) : res (list row5) :=
  if s_range r >? 0 then
    if (length rows <? cap)%nat then Ok (r :: rows) else Err MemoryError
  else Ok rows.

(* the arrays a and t share the index j: one stack of pairs *)
Fixpoint reduce5 (fuel : nat) (cap : nat) (st : list (Z * Z)) (rows : list row5) (c1 : nat)
  : res (list (Z * Z) * list row5 * nat) :=
  match fuel with
  | O => Err OutOfFuel
  | S fuel' =>
      match st with
      | (x, tx) :: (y, ty) :: (z, tz) :: rest =>
          if Z.abs (y - z) <=? Z.abs (x - y) then
            match rest with
            | [] =>
                let* rows' := push5 cap rows (Row5 (Z.abs (y - z)) (y + z) false tz (ty - tz)) in
                reduce5 fuel' cap [(x, tx); (y, ty)] rows' c1
            | _ =>
                let* rows' := push5 cap rows (Row5 (Z.abs (y - z)) (y + z) true tz (ty - tz)) in
                reduce5 fuel' cap ((x, tx) :: rest) rows'
                  (if Z.abs (y - z) >? 0 then S c1 else c1)
            end
          else Ok (st, rows, c1)
      | _ => Ok (st, rows, c1)
      end
  end.

(* lines 539-566: array_t[i] is read without a bounds check *)
Fixpoint count5 (cap : nat) (xs ts : list Z) (st : list (Z * Z)) (rows : list row5) (c1 : nat)
  : res (list (Z * Z) * list row5 * nat) :=
  match xs with
  | [] => Ok (st, rows, c1)
  | x :: xs' =>
      match ts with
      | [] => Err MemoryError
      | t :: ts' =>
          let* s := reduce5 (S (S (length st))) cap ((x, t) :: st) rows c1 in
          let '(st', rows', c1') := s in count5 cap xs' ts' st' rows' c1'
      end
  end.

Fixpoint residue5 (cap : nat) (a : list (Z * Z)) (rows : list row5) : res (list row5) :=
  match a with
  | (u, tu) :: (((v, tv) :: _) as q) =>
      let* rows' := push5 cap rows (Row5 (Z.abs (u - v)) (u + v) false tu (tv - tu)) in
      residue5 cap q rows'
  | _ => Ok rows
  end.

Definition findrfc5 (tp t : list Z) : res (list row5 * nat) :=
  let n := length tp in
  let* s := count5 n tp t [] [] 1 in
  let '(st, rows, c1) := s in
  let* rows' := residue5 n (rev st) rows in
  Ok (rev rows', c1).

(* ---- _misc_numba.py:581-620  findrfc_astm, t given ------------------------------ *)
Definition findrfc_astm5 (tp t : list Z) : res (list cell5) :=
  let n := length tp in
  let* r := findrfc5 tp t in
  let '(rows, cnr) := r in
  let sig := map Counted5 rows ++ repeat Zero5 (n - length rows) in
  Ok (upto sig (Z.of_nat n - Z.of_nat cnr)).
