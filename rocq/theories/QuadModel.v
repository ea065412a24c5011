(* Model of the quadrature rules of src/wafo/integrate.py: boole, _expand_roots, the linear map of
   p_roots, q5_roots ... q9_roots, clencurt.  Exact real arithmetic; the Newton iterations that find the
   Legendre, Hermite, Laguerre and Jacobi roots are not modelled, their results are parameters. *)
From Coq Require Import Reals.
From Verif Require Import Base PolyModel OrthoModel.
Local Open Scope R_scope.

Definition sumR (l : list R) : R := fold_right Rplus 0 l.
(* y[start:stop:step] of non-negative arguments *)
Definition strided (y : list R) (start stop step : nat) : list R :=
  map (at_R y) (filter (fun i => (start <=? i)%nat && ((i - start) mod step =? 0)%nat) (seq 0 (Nat.min stop (List.length y)))).

(* integrate.py:1267-1273 boole; n >= 3 (the stop n - 3 of the last slice is not negative) *)
Definition boole (y x : list R) : R :=
  let n := List.length x in
  let a := hd 0 x in
  let b := last x 0 in
  let h := (b - a) / INR (n - 1) in
  (2 * h / 45) * (7 * (hd 0 y + last y 0) + 12 * sumR (strided y 2 (n - 1) 4) +
                  32 * sumR (strided y 1 (n - 1) 2) + 14 * sumR (strided y 4 (n - 3) 4)).

(* integrate.py:634-641 _expand_roots; x[m - 1::-1] starts at the last element for m = 0 *)
Definition back_from {A} (l : list A) (m : nat) : list A := match m with O => rev l | _ => rev (firstn m l) end.
Definition expand_roots (x w : list R) (n m : nat) : list R * list R :=
  let x := if (n <? m + m)%nat then upd x (m - 1) 0 else x in
  let m := if (m + m =? n)%nat then m else (m - 1)%nat in
  (x ++ map Ropp (back_from x m), w ++ back_from w m).

(* integrate.py:707-713 the linear map of p_roots from [-1,1] to [a,b] *)
Definition p_roots_map (nodes weights : list R) (a b : R) : list R * list R :=
  if Req_EM_T a (-1) then
    if Req_EM_T b 1 then (nodes, weights)
    else let d := (b - a) / 2 in (map (fun x => d * (x + 1) + a) nodes, map (fun w => w * d) weights)
  else let d := (b - a) / 2 in (map (fun x => d * (x + 1) + a) nodes, map (fun w => w * d) weights).

(* integrate.py:716-723 q5_roots *)
Definition q5_roots (n : nat) : list R * list R :=
  (map (fun j => cos ((2 * INR j - 1) * PI / (2 * INR n))) (seq 1 n), repeat (PI / INR n) n).
(* integrate.py:726-734 q6_roots *)
Definition q6_roots (n : nat) : list R * list R :=
  let xj j := INR j * PI / (INR n + 1) in
  (map (fun j => cos (xj j)) (seq 1 n), map (fun j => PI / (INR n + 1) * sin (xj j) ^ 2) (seq 1 n)).
(* integrate.py:737-744 q7_roots *)
Definition q7_roots (n : nat) : list R * list R :=
  let xj j := (INR j - 1/2) * PI / (2 * INR n + 1) in
  (map (fun j => cos (xj j) ^ 2) (seq 1 n), map (fun j => 2 * PI * cos (xj j) ^ 2 / (2 * INR n + 1)) (seq 1 n)).
Definition zip_filter (keep : R -> bool) (nodes weights : list R) : list (R * R) :=
  filter (fun p => keep (fst p)) (combine nodes weights).
(* integrate.py:747-755 q8_roots; [nodes], [weights] are p_roots(2 n) *)
Definition q8_roots (nodes weights : list R) : list R * list R :=
  let k := zip_filter (fun x => if Rle_dec 0 x then true else false) nodes weights in
  (map (fun p => 1 - fst p ^ 2) k, map (fun p => 2 * snd p) k).
(* integrate.py:758-766 q9_roots; [nodes], [weights] are p_roots(2 n + 1) *)
Definition q9_roots (nodes weights : list R) : list R * list R :=
  let k := zip_filter (fun x => if Rlt_dec 0 x then true else false) nodes weights in
  (map (fun p => 1 - fst p ^ 2) k, map (fun p => 2 * fst p ^ 2 * snd p) k).

(* integrate.py:34-133 clencurt for one interval and a callable that is evaluated elementwise; [store] is
   the conversion to the type of the array returned by the integrand when its first and last entries are
   halved in place; the real part of the FFT is written out; [n] >= 1 *)
Definition clencurt_x (a b : R) (n2 s : nat) : R := cos (PI * INR s / INR n2) * (b - a) / 2 + (b + a) / 2.
Definition clencurt_f (store : R -> R) (f : R -> R) (a b : R) (n2 s : nat) : R :=
  let v := f (clencurt_x a b n2 s) in
  if (s =? 0)%nat || (s =? n2)%nat then store (v / 2) else v.
Definition clencurt_c (store : R -> R) (f : R -> R) (a b : R) (n k : nat) : R :=
  let n2 := (2 * n)%nat in
  let tmp := vsum n2 (fun s => clencurt_f store f a b n2 s * cos (2 * PI * INR k * INR s / INR n2)) in
  let c := 2 / INR n2 * (tmp + cos (PI * INR (2 * k)) * clencurt_f store f a b n2 n2) in
  let c := if (k =? 0)%nat || (k =? n)%nat then c / 2 else c in
  c / ((INR (2 * k) - 1) * (INR (2 * k) + 1)).
Definition clencurt (store : R -> R) (f : R -> R) (a b : R) (n : nat) : R * R :=
  ((a - b) * vsum (S n) (clencurt_c store f a b n), (b - a) * Rabs (clencurt_c store f a b n n)).
