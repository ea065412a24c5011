(* Model of disufq (src/wafo/_misc_numba.py:251-471, the same loops as source/c_library/c_functions.c:200-388) over exact reals.  rvec and ivec have the
   same length and are kept as one array of complex numbers; a write to both is one write, the write to rvec alone (line 298) adds a real number.
   Nothing checks the positions of writes in the compiled loops: a position outside the array is MemoryError.  Reads outside rA, iA, w and kw
   are not modelled (the theorems give the lengths); a division by zero is the quotient of Coq's reals. *)
From Coq Require Import Reals List Arith.
From Coquelicot Require Import Complex.
From Verif Require Import Base.
Import ListNotations.
Local Open Scope R_scope.

Definition write := (nat * C)%type.
(* vec[p] += v *)
Fixpoint add_at (l : list C) (p : nat) (v : C) : res (list C) :=
  match l, p with
  | [], _ => Err MemoryError
  | a :: l', O => Ok (Cplus a v :: l')
  | a :: l', S p' => let* r := add_at l' p' v in Ok (a :: r)
  end.
Fixpoint perform (ws : list write) (l : list C) : res (list C) :=
  match ws with
  | [] => Ok l
  | w :: ws' => let* l' := add_at l (fst w) (snd w) in perform ws' l'
  end.

(* range(a, b) *)
Definition range (a b : nat) : list nat := seq a (b - a).
Definition kfact : R := 2.
(* 281-300: the diagonal, with Ep and Ed for the frequency ix; deep water (370-391) has no write for Ed *)
Definition diagonal (rA iA : list R) (m : nat) (Ep : R) (Ed : option R) (ix i : nat) : list write :=
  let r := nth (ix * m + i) rA 0 in let s := nth (ix * m + i) iA 0 in
  let rrA := r * r in let iiA := s * s in let riA := r * s in
  ((2 * (ix * m) + i)%nat, (kfact * (rrA - iiA) * Ep, kfact * 2 * riA * Ep))
  :: match Ed with None => [] | Some e => [(i, (2 * (rrA + iiA) * e, 0))] end.
(* 323-357, 399-433: the frequencies ix < jy *)
Definition pair_of (rA iA : list R) (m : nat) (Ep Ed : R) (ix jy i : nat) : list write :=
  let r1 := nth (ix * m + i) rA 0 in let s1 := nth (ix * m + i) iA 0 in
  let r2 := nth (jy * m + i) rA 0 in let s2 := nth (jy * m + i) iA 0 in
  let rrA := r1 * r2 in let iiA := s1 * s2 in let riA := r1 * s2 in let irA := s1 * r2 in
  [((ix * m + jy * m + i)%nat, (kfact * 2 * (rrA - iiA) * Ep, kfact * 2 * (riA + irA) * Ep));
   ((jy * m - ix * m + i)%nat, (kfact * 2 * (rrA + iiA) * Ed, kfact * 2 * (riA - irA) * Ed))].
(* 260-360, 369-433: the loops over ix, i and jy in both functions *)
Definition loops (rA iA : list R) (m nmin nmax : nat) (Ep1 : nat -> R) (Ed1 : nat -> option R) (Ep2 Ed2 : nat -> nat -> R) : list write :=
  flat_map (fun ix =>
    flat_map (diagonal rA iA m (Ep1 ix) (Ed1 ix) ix) (range 0 m) ++
    flat_map (fun jy => flat_map (pair_of rA iA m (Ep2 ix jy) (Ed2 ix jy) ix jy) (range 0 m)) (range (ix + 1) nmax))
  (range (nmin - 1) nmax).

(* 262-278 *)
Definition finite_Ed1 (w1 kw1 h g : R) : R :=
  let tmp1 := tanh (kw1 * h) in
  let Cg := 1 / 2 * g * (tmp1 + kw1 * h * (1 - tmp1 * tmp1)) / w1 in
  let tmp1 := 1 / 2 * g * (kw1 / w1) * (kw1 / w1) in
  let tmp2 := 1 / 2 * w1 * w1 / g in
  let tmp3 := g * kw1 / (w1 * Cg) in
  let tmp4 := if Rlt_dec (kw1 * h) 300 then kw1 / sinh (2 * kw1 * h) else 0 in
  (tmp1 - tmp2 + tmp3) / (1 - g * h / (Cg * Cg)) - tmp4.
Definition finite_Ep1 (w1 kw1 h g : R) : R :=
  let tmp1 := 1 / 2 * g * (kw1 / w1) * (kw1 / w1) in
  let tmp2 := 1 / 2 * w1 * w1 / g in
  3 * (tmp1 - tmp2) / (1 - tmp1 / kw1 * tanh (2 * kw1 * h)) + 3 * tmp2 - tmp1.
(* 305-320 *)
Definition finite_Ep2 (w1 kw1 w2 kw2 h g : R) : R :=
  let tmp1 := g * (kw1 / w1) * (kw2 / w2) in
  let tmp2 := 1 / 2 / g * (w1 * w1 + w2 * w2 + w1 * w2) in
  let tmp3 := 1 / 2 * g * (w1 * kw2 * kw2 + w2 * kw1 * kw1) / (w1 * w2 * (w1 + w2)) in
  let tmp4 := 1 - g * (kw1 + kw2) / (w1 + w2) / (w1 + w2) * tanh ((kw1 + kw2) * h) in
  (tmp1 - tmp2 + tmp3) / tmp4 + tmp2 - 1 / 2 * tmp1.
Definition finite_Ed2 (w1 kw1 w2 kw2 h g : R) : R :=
  let tmp1 := g * (kw1 / w1) * (kw2 / w2) in
  let tmp2 := 1 / 2 / g * (w1 * w1 + w2 * w2 - w1 * w2) in
  let tmp3 := - (1 / 2) * g * (w1 * kw2 * kw2 - w2 * kw1 * kw1) / (w1 * w2 * (w1 - w2)) in
  let tmp4 := 1 - g * (kw1 - kw2) / (w1 - w2) / (w1 - w2) * tanh ((kw1 - kw2) * h) in
  (tmp1 - tmp2 + tmp3) / tmp4 + tmp2 - 1 / 2 * tmp1.
(* 373-374, 394-396 *)
Definition deep_Ep1 (kw1 : R) : R := kw1.
Definition deep_Ep2 (kw1 kw2 : R) : R := 1 / 2 * (kw2 + kw1).
Definition deep_Ed2 (kw1 kw2 : R) : R := - (1 / 2) * (kw2 - kw1).

(* 464-471 *)
Definition disufq (rA iA w kw : list R) (h g : R) (nmin nmax m n : nat) : res (list C) :=
  let at_ l i := nth i l 0 in
  let zeros := repeat (RtoC 0) (n * m) in
  if Rlt_dec 10000 h then
    perform (loops rA iA m nmin nmax (fun i => deep_Ep1 (at_ kw i)) (fun _ => None)
               (fun i j => deep_Ep2 (at_ kw i) (at_ kw j)) (fun i j => deep_Ed2 (at_ kw i) (at_ kw j))) zeros
  else
    perform (loops rA iA m nmin nmax (fun i => finite_Ep1 (at_ w i) (at_ kw i) h g) (fun i => Some (finite_Ed1 (at_ w i) (at_ kw i) h g))
               (fun i j => finite_Ep2 (at_ w i) (at_ kw i) (at_ w j) (at_ kw j) h g)
               (fun i j => finite_Ed2 (at_ w i) (at_ kw i) (at_ w j) (at_ kw j) h g)) zeros.
