(* Model of CovData1D.sim (src/wafo/covariance/core.py:297-466) over exact reals, with derivative=False and without a transformation.  The numbers
   drawn by randn are an argument; data is an array with one axis. *)
From Coq Require Import Reals List ZArith Bool.
From Coquelicot Require Import Complex.
From Verif Require Import Base PolyModel KdeModel SpectModel DftModel CovModel.
Import ListNotations.
Local Open Scope R_scope.

(* 292-295 _is_valid_acf *)
Definition is_valid_acf (data : list R) : res unit := match data with [] => Err ValueError | _ => if (argmaxR data =? 0)%nat then Ok tt else Err ValueError end.
(* 275-290 sampling_period; the warning is left out *)
Definition sampling_period (args : list R) : res R :=
  match args with
  | a0 :: _ :: _ => Ok ((last args 0 - a0) / INR (List.length args - 1))
  | _ => Err IndexError
  end.
(* 384-394: nfft and the circulant vector.  floatinfo.eps is eps *)
Definition embed (eps : R) (acf : list R) (ns : nat) : nat * list R :=
  let n := List.length acf in
  if Rlt_dec eps (Rabs (last acf 0)) then
    let m2 := (2 * n - 1)%nat in
    let nfft := pow2_above (Nat.max m2 (2 * ns)) in
    (nfft, acf ++ repeat 0 (nfft - m2) ++ rev (skipn 1 acf))
  else
    let m2 := (2 * n - 2)%nat in
    let nfft := pow2_above (Nat.max m2 (2 * ns)) in
    (nfft, acf ++ repeat 0 (nfft - m2) ++ rev (skipn 2 acf)).
(* 397 spec = fft(acf, nfft, axis=0).real *)
Definition spectrum (nfft : nat) (c : list R) : list R := map (fun m => fst (fft nfft (padded c) m)) (seq 0 nfft).
Definition neg (v : R) : bool := if Rlt_dec v 0 then true else false.
(* 400-420: negative values, and what lies beyond twice the peak if one of them does, are set to zero *)
Definition no_negative (s : list R) : list R :=
  let N := List.length s in
  if existsb neg s then
    let s' := map (fun v => if neg v then 0 else v) s in
    match find (fun k => neg (at_R s k) && (2 * argmaxR s <? k)%nat) (seq 0 N) with
    | None => s'
    | Some i0 => map (fun k => if (i0 <=? k)%nat && (k <? N - i0)%nat then 0 else at_R s' k) (seq 0 N)
    end
  else s.
(* 399, 422-425: spec[I:-I], which is empty for I = 0 *)
Definition truncated (s : list R) : list R :=
  let N := List.length s in
  let i := argmaxR s in
  let s1 := no_negative s in
  let top := at_R s1 i in
  map (fun k => if negb (i =? 0)%nat && (i <=? k)%nat && (k <? N - i)%nat && (if Rlt_dec (at_R s1 k) (top * (1 / 100000)) then true else false) then 0 else at_R s1 k) (seq 0 N).
(* 430-446: the columns.  d false m j and d true m j are the entries of the two matrices of random numbers *)
Definition columns (nfft : nat) (s : list R) (ns cases : nat) (d : bool -> nat -> nat -> R) : res (list (list R)) :=
  let cases1 := (cases / 2)%nat in
  let cases2 := ((cases + 1) / 2)%nat in
  let y j p := fft nfft (fun m => (d false m j * sqrt (at_R s m / INR nfft), d true m j * sqrt (at_R s m / INR nfft))) p in
  if (ns <=? nfft - 2)%nat then
    Ok (map (fun j => map (fun p => fst (y j p)) (seq 2 ns)) (seq 0 cases2) ++ map (fun j => map (fun p => snd (y j p)) (seq 2 ns)) (seq 0 cases1))
  else Err ValueError.
(* 297-466 sim: the times and the simulated columns *)
Definition sim (eps : R) (data args : list R) (ns : option nat) (cases : nat) (d : bool -> nat -> nat -> R) : res (list R * list (list R)) :=
  let* _ := is_valid_acf data in
  let* dt := sampling_period args in
  match ns with
  | None => Err TypeError
  | Some ns =>
      let '(nfft, c) := embed eps data ns in
      let* x := columns nfft (truncated (spectrum nfft c)) ns cases d in
      Ok (linspace 0 ((INR ns - 1) * dt) ns, x)
  end.
