(* Model of the magic squares (src/wafo/demos.py:11-93).  Entries are integers (the arrays of odd order hold whole floats). *)
From Coq Require Import ZArith List.
From Verif Require Import Base.
Import ListNotations.
Local Open Scope Z_scope.

Definition matrix := list (list Z).
(* the array f(i, j), 0 <= i, j < n *)
Definition table (n : nat) (f : nat -> nat -> Z) : matrix := map (fun i => map (f i) (seq 0 n)) (seq 0 n).

(* 11-17 _magic_odd_order; I and J are the row and column numbers from 1 *)
Definition magic_odd (n : nat) : matrix :=
  let N := Z.of_nat n in
  table n (fun i j => let I := Z.of_nat i + 1 in let J := Z.of_nat j + 1 in
    let A := (I + J - (N + 3) / 2) mod N in
    let B := (I + 2 * J - 2) mod N in
    N * A + B + 1).

(* 20-26 _magic_doubly_even_order *)
Definition quarter (i : nat) : Z := ((Z.of_nat i + 1) mod 4) / 2.
Definition magic_doubly_even (n : nat) : matrix :=
  let N := Z.of_nat n in
  table n (fun i j => let m := N * Z.of_nat i + Z.of_nat j + 1 in if quarter i =? quarter j then N * N + 1 - m else m).

(* M[i][j] and its assignment; all indices below are inside the array *)
Fixpoint put {A} (l : list A) (i : nat) (v : A) : list A :=
  match l, i with [], _ => [] | _ :: l', O => v :: l' | a :: l', S i' => a :: put l' i' v end.
Definition get (M : matrix) (i j : nat) : Z := nth j (nth i M []) 0.
Definition put2 (M : matrix) (i j : nat) (v : Z) : matrix := put M i (put (nth i M []) j v).
(* 38-40: temp = M[i][j]; M[i][j] = M[i + p][j]; M[i + p][j] = temp *)
Definition swap (p j : nat) (i : nat) (M : matrix) : matrix :=
  let temp := get M i j in put2 (put2 M i j (get M (i + p) j)) (i + p) j temp.
(* 48-50: the same with the two cells in the other order *)
Definition swap' (p j : nat) (i : nat) (M : matrix) : matrix :=
  let temp := get M (i + p) j in put2 (put2 M (i + p) j (get M i j)) i j temp.

Definition shifted (c : Z) (M : matrix) : matrix := map (map (fun x => x + c)) M.
(* 29-51 _magic_even_order, given M0 = magic(n // 2) *)
Definition magic_even (n : nat) (M0 : matrix) : matrix :=
  let p := (n / 2)%nat in
  let q := Z.of_nat p * Z.of_nat p in
  let left := M0 ++ shifted (3 * q) M0 in
  let right := shifted (2 * q) M0 ++ shifted q M0 in
  let M := map (fun ab => fst ab ++ snd ab) (combine left right) in
  if (2 <? n)%nat then
    let k := ((n - 2) / 4)%nat in
    let jvec := seq 0 k ++ seq (n - k + 1) (n - (n - k + 1)) in
    let M := fold_left (fun M i => fold_left (fun M j => swap p j i M) jvec M) (seq 0 p) M in
    swap' p k k (swap p 0 k M)
  else M.

(* 54-93 magic; the recursion is bounded by n *)
Fixpoint magic_rec (fuel n : nat) : res matrix :=
  match fuel with
  | O => Err OutOfFuel
  | S fuel' =>
    if (n <? 3)%nat then Err ValueError
    else if (n mod 2 =? 1)%nat then Ok (magic_odd n)
    else if (n mod 4 =? 0)%nat then Ok (magic_doubly_even n)
    else let* M0 := magic_rec fuel' (n / 2) in Ok (magic_even n M0)
  end.
Definition magic (n : Z) : res matrix := if n <? 3 then Err ValueError else magic_rec (Z.to_nat n) (Z.to_nat n).
