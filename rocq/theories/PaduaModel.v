(* Interpolation and cubature at the Padua points: padua_points, padua_fit, padua_val, padua_cubature and error_estimate in
   src/wafo/padua.py, over exact real numbers.  A matrix is a list of rows.  padua_fit2 and paduavals2coefs, marked in the source as not
   working, are not modelled. *)
From Coq Require Import Reals Lra Ratan.
From Coquelicot Require Import Complex.
From Verif Require Import Base PolyModel KdeModel OrthoModel ProcModel DftModel.
Local Open Scope R_scope.

(* padua.py:291-297 _find_m.  np.r_[1:m:2] has m/2 entries for m even *)
Definition odd_numbers (m : nat) : list nat := map (fun i => 1 + 2 * i)%nat (seq 0 (m / 2)).
Fixpoint times_list {A} (k : nat) (l : list A) : list A := match k with O => [] | S k' => l ++ times_list k' l end.
(* [[0, 1] * n2 + [0]] * (n2 + 1), read column by column *)
Definition offset (n2 : nat) : list nat := flat_map (fun v => repeat v (n2 + 1)) (times_list n2 [0; 1] ++ [0])%nat.
Definition find_m (n : nat) : list nat :=
  let ix := odd_numbers ((n + 1) * (n + 2)) in
  if Nat.even n then map2 Nat.sub ix (offset (n / 2)) else ix.

Definition domain := (R * R * R * R)%type.
(* padua.py:300-329 padua_points.  meshgrid(zn, zn1) read column by column *)
Definition padua_points (n : nat) (dom : domain) : list (R * R) :=
  let '(a, b, c, d) := dom in
  let t0 := if (n =? 0)%nat then [PI] else linspace 0 PI (n + 1) in
  let t1 := linspace 0 PI (n + 2) in
  let zn := map (fun t => map_to_interval (cos t) a b) t0 in
  let zn1 := map (fun t => map_to_interval (cos t) c d) t1 in
  let pad1 := flat_map (fun z => repeat z (List.length zn1)) zn in
  let pad2 := times_list (List.length zn) zn1 in
  map (fun i => (at_R pad1 i, at_R pad2 i)) (find_m n).

(* padua.py:332-342 error_estimate; np.diag(fliplr(c), -k) of a square matrix with m columns *)
Definition at_M (c : list (list R)) (i j : nat) : R := at_R (nth i c []) j.
Definition antidiagonal (c : list (list R)) (m k : nat) : list R := map (fun j => at_M c (j + k) (m - 1 - j)) (seq 0 (m - k)).
Definition sum_abs (l : list R) : R := npsum (map Rabs l).
Definition error_estimate (c : list (list R)) : R :=
  let m := List.length (hd [] c) in
  let e := sum_abs (antidiagonal c m 0) in
  let e := if (1 <=? m)%nat then let e := e + sum_abs (antidiagonal c m 1) in if (2 <=? m)%nat then e + sum_abs (antidiagonal c m 2) else e else e in
  2 * e.

(* padua.py:382 the degree from the number of points; round of a number that is never halfway between integers *)
Definition degree_of (N : nat) : nat := Z.to_nat (floor (IZR (floor (-3 + sqrt (1 + 8 * INR N) + 1 / 2)) / 2)).
(* a[ix] = v for distinct indices *)
Fixpoint scatter (a : list R) (ix : list nat) (v : list R) : list R :=
  match ix, v with i :: ix', x :: v' => scatter (upd a i x) ix' v' | _, _ => a end.
(* the operations on the matrix, as functions of the two indices *)
Definition halve_row (r : nat) (g : nat -> nat -> R) : nat -> nat -> R := fun i j => if (i =? r)%nat then g i j / 2 else g i j.
Definition halve_col (r : nat) (g : nat -> nat -> R) : nat -> nat -> R := fun i j => if (j =? r)%nat then g i j / 2 else g i j.
(* np.real(fft(column or row, N)) where only the first len entries are not zero *)
Definition real_fft (N len : nat) (x : nat -> R) (k : nat) : R := Re (fft N (fun j => RtoC (if (j <? len)%nat then x j else 0)) k).
(* padua.py:345-415 padua_fit *)
Definition padua_fit (pad : list (R * R)) (f : R -> R -> R) : res (list (list R) * R) :=
  let N := List.length pad in
  let n := degree_of N in
  let v := map (fun p => f (fst p) (snd p)) pad in
  if (0 <? n)%nat then
    let ix := find_m n in
    if negb (List.length v =? List.length ix)%nat then Err ValueError else
    let flat := scatter (repeat 0 ((n + 2) * (n + 1))) ix (map (fun y => y * 2 / (INR n * (INR n + 1))) v) in
    let gft := fun i j => at_R flat (j * (n + 2) + i) in
    let gft := halve_row 0 gft in
    let gft := halve_row (n + 1) gft in
    let gft := halve_col 0 gft in
    let gft := halve_col n gft in
    let gf := fun j i => gft i j in
    let gfhat := fun k i => real_fft (2 * n) (n + 1) (fun j => gf j i) k in
    let gfhathat := fun k l => real_fft (2 * (n + 1)) (n + 2) (fun i => gfhat k i) l in
    let c := fun k l => 2 * gfhathat k l in
    let c := fun k l => if (k =? 0)%nat then c k l / sqrt 2 else c k l in
    let c := fun k l => if (l =? 0)%nat then c k l / sqrt 2 else c k l in
    (* np.fliplr(np.triu(np.fliplr(c))) keeps the entries with k <= n - l *)
    let c := fun k l => if (k <=? n - l)%nat then c k l else 0 in
    let c := fun k l => if (k =? n)%nat then c k l / 2 else c k l in
    let m := map (fun k => map (c k) (seq 0 (n + 1))) (seq 0 (n + 1)) in
    Ok (m, error_estimate m)
  else Err IndexError.      (* the values are a vector: C0f.shape[1] in error_estimate *)

(* padua.py:462-480 _compute_moments, padua_cubature, for a matrix with at least one column *)
Definition cub_moments (n : nat) : list R := upd (map (fun i => 2 * sqrt 2 / (1 - INR (2 * i) ^ 2)) (seq 0 ((n + 1) / 2))) 0 2.
Definition padua_cubature (c : list (list R)) (dom : domain) : R :=
  let '(a1, b1, c1, d1) := dom in
  let n := List.length (hd [] c) in
  let mom := cub_moments n in
  let m := List.length mom in
  (b1 - a1) * (d1 - c1) * npsum (flat_map (fun i => map (fun j => at_M c (2 * i) (2 * j) * (at_R mom j * at_R mom i)) (seq 0 m)) (seq 0 m)) / 4.

(* padua.py:483-526 padua_val, one point of the target; the meshgrid variant evaluates the same sum in another order *)
Definition clip (x : R) : R := Rmin (Rmax x (-1)) 1.
Definition transform (k : nat) (x a b : R) : R := if (k =? 0)%nat then 1 else cos (INR k * acos (clip (map_from_interval x a b))) * sqrt 2.
Definition padua_val (x y : R) (c : list (list R)) (dom : domain) : R :=
  let '(a1, b1, c1, d1) := dom in
  let n := List.length (hd [] c) in
  npsum (map (fun l => npsum (map (fun k => transform k x a1 b1 * at_M c k l) (seq 0 n)) * transform l y c1 d1) (seq 0 n)).
Definition padua_val_mesh (X Y : list R) (c : list (list R)) (dom : domain) : list (list R) :=
  let '(a1, b1, c1, d1) := dom in
  let n := List.length (hd [] c) in
  map (fun y => map (fun x => npsum (map (fun k => transform k x a1 b1 * npsum (map (fun l => at_M c k l * transform l y c1 d1) (seq 0 n))) (seq 0 n))) X) Y.
