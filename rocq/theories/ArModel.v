(* Model of the latent process of LevelCrossings.sim (src/wafo/objects.py:361-431) over exact reals: an autoregressive process of order 2.  Its
   transformation to the wanted crossing spectrum (433-479) is not modelled.  The numbers drawn by randn are an argument. *)
From Coq Require Import Reals List.
From Verif Require Import PolyModel KdeModel SpectModel.
Import ListNotations.
Local Open Scope R_scope.

(* 415-416: rho_st, for one f *)
Definition rho_st (f : R) : R := 2 * sin (f * PI) ^ 2 - 1.
(* 417-418: tmp *)
Definition tmp (alpha f : R) : R := sin (alpha * asin (sqrt ((1 + rho_st f) / 2))) ^ 2.
(* 419 *)
Definition a2_of (alpha f : R) : R := (tmp alpha f - rho_st f) / (1 - tmp alpha f).
(* 420 *)
Definition margin (alpha f : R) : R := Rmin (a2_of alpha f + rho_st f) (1 - a2_of alpha f).
(* 415, 421, 424: the chosen frequency *)
Definition grid : list R := linspace 0 (49999 / 100000) 1000.
Definition best (alpha : R) : R := nth (argmaxR (map (margin alpha) grid)) grid 0.
(* 425-426 *)
Definition coef2 (alpha : R) : R := a2_of alpha (best alpha).
Definition coef1 (alpha : R) : R := 2 * rho_st (best alpha) + coef2 alpha - 1.
(* 428-430 *)
Definition cor1 (alpha : R) : R := - coef1 alpha / (1 + coef2 alpha).
Definition cor2 (alpha : R) : R := (coef1 alpha ^ 2 - coef2 alpha - coef2 alpha ^ 2) / (1 + coef2 alpha).
Definition innovation (alpha : R) : R := 1 + coef1 alpha * cor1 alpha + coef2 alpha * cor2 alpha.
(* scipy.signal.lfilter([b0, b1, b2], [1], x), transposed direct form with the delays z0, z1 *)
Fixpoint lfilter_ma (b0 b1 b2 z0 z1 : R) (x : list R) : list R :=
  match x with [] => [] | v :: x => (b0 * v + z0) :: lfilter_ma b0 b1 b2 (b1 * v + z1) (b2 * v) x end.
(* lfilter([1], [1, a1, a2], x, zi=[z0, z1]) *)
Fixpoint lfilter_ar (a1 a2 z0 z1 : R) (x : list R) : list R :=
  match x with [] => [] | v :: x => (v + z0) :: lfilter_ar a1 a2 (z1 - a1 * (v + z0)) (- a2 * (v + z0)) x end.
(* 432-438: the process L; d 0, ..., d (ns - 1) are the draws for e, d ns and d (ns + 1) those for L0 *)
Definition latent (alpha : R) (ns : nat) (d : nat -> R) : list R :=
  let a1 := coef1 alpha in let a2 := coef2 alpha in
  let e := map (fun k => if Nat.ltb k 2 then 0 else d k * sqrt (innovation alpha)) (seq 0 ns) in
  let l0 := d ns in
  let l1 := cor1 alpha * l0 + sqrt (1 - cor2 alpha ^ 2) * d (ns + 1)%nat in
  let z := lfilter_ma 1 a1 a2 0 0 [l0; l1] in
  lfilter_ar a1 a2 (nth 0 z 0) (nth 1 z 0) e.
