(* Model of CovData1D.simcond (src/wafo/covariance/core.py:468-684) and sptoeplitz (687-698) over exact reals.  A missing value (NaN) is None.
   solve stands for scipy's lstsq and spsolve, draw for numpy's multivariate_normal, simall for the column that self.sim returns.
   The object's data and the series are arrays of floats with one axis, of which simcond has views: they are part of the outcome. *)
From Coq Require Import Reals List ZArith Bool.
From Verif Require Import Base PolyModel SpectModel CsimModel.
Import ListNotations.
Local Open Scope R_scope.

Definition gtR (a b : R) : bool := if Rlt_dec b a then true else false.
Definition total (l : list R) : R := fold_right Rplus 0 l.
(* np.cumsum *)
Definition cumsum (l : list R) : list R := map (fun k => total (firstn (S k) l)) (seq 0 (List.length l)).
(* 468-479 _get_lag_where_acf_is_almost_zero *)
Definition get_lag (data : list R) : nat :=
  let r0 := nth 0 data 0 in
  let n := List.length data in
  let sigma := map (fun v => sqrt (v / INR n)) (0 :: r0 ^ 2 :: map (fun c => r0 ^ 2 + 2 * c) (cumsum (map (fun v => v ^ 2) (firstn (n - 2) (skipn 1 data))))) in
  match filter (fun k => gtR (Rabs (nth k data 0)) (1 / 10 * nth k sigma 0)) (seq 0 n) with
  | [] => n
  | ks => Nat.min (last ks 0%nat + 3) n
  end.
(* 481-489 _get_acf with smooth=False *)
Definition get_acf (data : list R) : res (list R) := let* _ := is_valid_acf data in Ok (firstn (get_lag data) data).
(* scipy.linalg.toeplitz *)
Definition toeplitz (c : list R) (i j : nat) : R := nth (i - j + (j - i)) c 0.
(* 687-698 sptoeplitz: sums of diagonals *)
Definition nonzero (c : list R) : list nat := filter (fun k => if Req_EM_T (nth k c 0) 0 then false else true) (seq 0 (List.length c)).
Definition sptoeplitz (c : list R) : res (nat -> nat -> R) :=
  match nonzero c with
  | [] => Err IndexError
  | k0 :: ks =>
      let lower := if (k0 =? 0)%nat then ks else k0 :: ks in
      Ok (fun i j => total (map (fun k => if (j =? i + k)%nat then nth k c 0 else 0) (k0 :: ks)) + total (map (fun k => if (i =? j + k)%nat then nth k c 0 else 0) lower))
  end.

Definition is_missing (x : list (option R)) (i : nat) : bool := match nth i x None with None => true | Some _ => false end.
Definition val (x : list (option R)) (i : nat) : R := match nth i x None with None => 0 | Some v => v end.
Definition solver := nat -> nat -> (nat -> nat -> R) -> (nat -> nat -> R) -> nat -> nat -> R.
(* 491-504 _split_cov and 604-618, 643-656: the weights, the means and the covariances of the unknown values given the known ones *)
Definition weights (solve : solver) (sigma : nat -> nat -> R) (K U : list nat) : nat -> nat -> R :=
  let soo i j := sigma (nth i K 0%nat) (nth j K 0%nat) in
  let so1 i j := sigma (nth i K 0%nat) (nth j U 0%nat) in
  solve (List.length K) (List.length U) (fun i j => soo i j + soo j i) (fun i j => 2 * so1 i j).
Definition means (w : nat -> nat -> R) (K U : list nat) (v : nat -> R) : list R :=
  map (fun u => total (map (fun j => w j u * v (nth j K 0%nat)) (seq 0 (List.length K)))) (seq 0 (List.length U)).
Definition left_over (sigma w : nat -> nat -> R) (K U : list nat) (u v : nat) : R :=
  sigma (nth u U 0%nat) (nth v U 0%nat) - total (map (fun j => w j u * sigma (nth j K 0%nat) (nth v U 0%nat)) (seq 0 (List.length K))).
Definition deviations (s : nat -> nat -> R) (n : nat) : res (list R) :=
  if existsb (fun u => neg (s u u)) (seq 0 n) then Err ValueError else Ok (map (fun u => sqrt (s u u)) (seq 0 n)).

Inductive way := Exact | Approx | Other.
Record outcome := Outcome { ret : res (list R * list R * list R); data_after : list R; x_after : list (option R) }.
(* 568-583 *)
Definition mark (x : list (option R)) (iu : list nat) : list (option R) := map (fun i => if existsb (Nat.eqb i) iu then None else nth i x None) (seq 0 (List.length x)).
Definition replaced {A} (x : list A) (at_ : list nat) (v : list A) (d : A) : list A :=
  map (fun i => match find (fun p => (fst p =? i)%nat) (combine at_ v) with Some p => snd p | None => nth i x d end) (seq 0 (List.length x)).
(* 506-684.  In the sparse case two values or more are missing *)
Definition simcond (solve : solver) (draw : list R -> (nat -> nat -> R) -> list R) (simall : nat -> res (list R)) (data : list R) (x0 : list (option R)) (m : way) (iu : option (list nat)) : outcome :=
  match get_acf data with
  | Err e => Outcome (Err e) data x0
  | Ok acf =>
      let num_x := List.length x0 in
      let num_acf := List.length acf in
      if match iu with None => false | Some l => existsb (fun i => (num_x <=? i)%nat) l end then Outcome (Err IndexError) data x0 else
      let x := match iu with None => x0 | Some l => mark x0 l end in
      let U := filter (is_missing x) (seq 0 num_x) in
      let K := filter (fun i => negb (is_missing x i)) (seq 0 num_x) in
      let num := List.length U in
      if (num =? 0)%nat then Outcome (Ok ([], [], [])) data x else
      if (num =? num_x)%nat then Outcome (let* s := simall num in Ok (s, repeat 0 num, repeat (sqrt (nth 0 acf 0)) num)) data x else
      match m with
      | Other => Outcome (Ok (repeat 0 num, repeat 0 num, repeat 0 num)) data x
      | Exact =>
          let dense := (3 * num_x <? 10 * num_acf)%nat in
          let data' := if dense then data else upd data 0 (nth 0 data 0 * (100001 / 100000)) in
          let acf' := if dense then acf else upd acf 0 (nth 0 acf 0 * (100001 / 100000)) in
          if (num_x <? num_acf)%nat then Outcome (Err ValueError) data' x else
          let c := acf' ++ repeat 0 (num_x - num_acf) in
          match (if dense then Ok (toeplitz c) else sptoeplitz c) with
          | Err e => Outcome (Err e) data' x
          | Ok sigma =>
              let w := weights solve sigma K U in
              let mu := means w K U (val x) in
              let s := left_over sigma w K U in
              Outcome (let* sd := deviations s num in Ok (draw mu s, mu, sd)) data' x
          end
      | Approx =>
          let num_sig := Nat.min (2 * num_acf) num_x in
          if (num_sig <? num_acf)%nat then Outcome (Err ValueError) data x else
          let sigma := toeplitz (acf ++ repeat 0 (num_sig - num_acf)) in
          let overlap := (num_sig / 4)%nat in
          let start := Nat.min (nth 0 U 0%nat - overlap) (num_x - num_sig) in
          let tU := filter (fun t => is_missing x (start + t)) (seq 0 num_sig) in
          let tK := filter (fun t => negb (is_missing x (start + t))) (seq 0 num_sig) in
          let w := weights solve sigma tK tU in
          let mu := means w tK tU (fun t => val x (start + t)) in
          let s := left_over sigma w tK tU in
          match deviations s (List.length tU) with
          | Err e => Outcome (Err e) data x
          | Ok sd =>
              let sample := draw mu s in
              if (start + num_sig =? num_x)%nat then Outcome (Ok (sample, mu, sd)) data x
              else Outcome (Err TypeError) data (replaced x (map (fun t => (start + t)%nat) tU) (map Some sample) None)
          end
      end
  end.
