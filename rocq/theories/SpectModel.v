(* Moments and characteristics of a spectrum: SpecData1D.moment, bandwidth, normalize and characteristic in spectrum/core.py.
   Arithmetic is exact; a division by zero and the root of a negative number are excluded by the hypotheses of the theorems. *)
From Coq Require Import Reals Lra String Ascii DecimalString.
From Verif Require Import Base PolyModel KdeModel FilterModel GridModel CovModel ProcModel SpcovModel.
Local Open Scope R_scope.

(* scipy.integrate.simps(y, x) with the default even='avg' of the releases that have it (setup.cfg asks for scipy >= 1.7): Simpson's rule
   for pairs of intervals of lengths h0 and h1; for an even number of points the mean of two rules, each with one trapezium at an end *)
Definition panel (h0 h1 y0 y1 y2 : R) : R := (h0 + h1) / 6 * (y0 * (2 - h1 / h0) + y1 * ((h0 + h1) ^ 2 / (h0 * h1)) + y2 * (2 - h0 / h1)).
Fixpoint basic_simpson (y x : list R) : R :=
  match y, x with
  | y0 :: y1 :: ((y2 :: _) as y'), x0 :: x1 :: ((x2 :: _) as x') => panel (x1 - x0) (x2 - x1) y0 y1 y2 + basic_simpson y' x'
  | _, _ => 0
  end.
Definition trapezium (y x : list R) (i : nat) : R := (at_R x (S i) - at_R x i) * (at_R y i + at_R y (S i)) / 2.
Definition simps (y x : list R) : R :=
  let n := List.length y in
  if Nat.odd n then basic_simpson y x
  else ((trapezium y x (n - 2) + basic_simpson (removelast y) (removelast x)) + (trapezium y x 0 + basic_simpson (tl y) (tl x))) / 2.

(* spectrum/core.py:3344-3368 SpecData1D.moment.  [angular_axis] and [angular_data] are f and S after the change of unit *)
Definition angular_axis (s : spectrum) : list R := match freqtype s with Hertz => map (fun v => 2 * PI * v) (sargs s) | _ => sargs s end.
Definition angular_data (s : spectrum) : list R := match freqtype s with Hertz => map (fun v => v / (2 * PI)) (sdata s) | _ => sdata s end.
Fixpoint moment_loop (k step i : nat) (s1 df f : list R) : list (R * nat) :=
  match k with
  | O => []
  | S k' => let s1 := map2 Rmult s1 df in (simps s1 f, (i + step)%nat) :: moment_loop k' step (i + step) s1 df f
  end.
Fixpoint times (i : nat) (c : ascii) : string := match i with O => EmptyString | S i' => String c (times i' c) end.
Definition moment_text (j : nat) (t : ftype) (i : nat) : string :=
  append "m" (append (NilEmpty.string_of_uint (Nat.to_uint j)) (times i (match t with Wavenumber => "x" | _ => "t" end)%char)).
Definition moment (nr : nat) (even : bool) (j : nat) (s : spectrum) : list R * list string :=
  let f := angular_axis s in
  let s1 := map (fun v => Rabs v ^ (j + 1)) (angular_data s) in
  let step := if even then 2%nat else 1%nat in
  let m := (simps s1 f, 0%nat) :: moment_loop (nr / step) step 0 s1 (map (fun v => v ^ step) f) f in
  (map fst m, map (fun p => moment_text j (freqtype s) (snd p)) m).

(* core.py:3599-3644 bandwidth.  The argument: one number, one name, or a list of numbers and names *)
Inductive factor := Index (i : Z) | Name (s : string).
Inductive factors := One (i : Z) | Word (s : string) | Several (l : list factor).
Definition fact_dict (s : string) : res Z :=
  if String.eqb s "alpha" then Ok 0%Z else if String.eqb s "eps2" then Ok 1%Z else if String.eqb s "eps4" then Ok 3%Z
  else if String.eqb s "qp" then Ok 3%Z else if String.eqb s "Qp" then Ok 3%Z else Err ValueError.
Fixpoint all_res {A B} (f : A -> res B) (l : list A) : res (list B) :=
  match l with [] => Ok [] | a :: l' => let* b := f a in let* r := all_res f l' in Ok (b :: r) end.
(* core.py:3635-3643, in the order of the documentation *)
Definition bandwidth_values (s : spectrum) : list R :=
  let m := at_R (fst (moment 4 false 0 s)) in
  let alpha := m 2%nat / sqrt (m 0%nat * m 4%nat) in
  let eps2 := sqrt (m 0%nat * m 2%nat / m 1%nat ^ 2 - 1) in
  let eps4 := sqrt (1 - m 2%nat ^ 2 / m 0%nat / m 4%nat) in
  let qp := 2 / m 0%nat ^ 2 * simps (map2 (fun f v => f * v ^ 2) (sargs s) (sdata s)) (sargs s) in
  [alpha; eps2; eps4; qp].
Definition bandwidth (a : factors) (s : spectrum) : res (list R) :=
  let* l := match a with One _ => Err TypeError | Word w => Ok [Name w] | Several l => Ok l end in   (* list(0) raises *)
  let* ids := all_res (fun k => match k with Index i => Ok i | Name w => fact_dict w end) l in
  all_res (getz (bandwidth_values s)) ids.

(* core.py:3538-3597 normalize; the object afterwards: the spectrum, A, and g when it is set *)
Definition normalize (g : R) (s : spectrum) : spectrum * R * option R :=
  let m := at_R (fst (moment 4 true 0 s)) in
  let m0 := m 0%nat in let m2 := m 1%nat in let m4 := m 2%nat in
  let a := sqrt m0 / sqrt m2 in
  let b := sqrt m2 / (sqrt m0 * m0) in
  match freqtype s with
  | Hertz => (Spectrum (map (fun v => v * b * 2 * PI) (sdata s)) (map (fun v => v * a / 2 / PI) (sargs s)) Hertz, a, None)
  | Omega => (Spectrum (map (fun v => v * b) (sdata s)) (map (fun v => v * a) (sargs s)) Omega, a, Some (g * sqrt (m0 * (m4 / g ^ 2)) / m2))
  | Wavenumber => (s, a, None)
  end.

(* ---- characteristic, core.py:3646-3899 ---- *)
(* str.capitalize *)
Definition upper_char (c : ascii) : ascii := let n := nat_of_ascii c in if ((97 <=? n) && (n <=? 122))%nat%bool then ascii_of_nat (n - 32) else c.
Definition lower_char (c : ascii) : ascii := let n := nat_of_ascii c in if ((65 <=? n) && (n <=? 90))%nat%bool then ascii_of_nat (n + 32) else c.
Fixpoint lower (s : string) : string := match s with EmptyString => EmptyString | String c s' => String (lower_char c) (lower s') end.
Definition capitalize (s : string) : string := match s with EmptyString => EmptyString | String c s' => String (upper_char c) (lower s') end.
(* 3753-3756 *)
Definition tfact1 : list string := ["Hm0"; "Tm01"; "Tm02"; "Tm24"; "Tm_10"; "Tp"; "Ss"; "Sp"; "Ka"; "Rs"; "Tp1"; "Alpha"; "Eps2"; "Eps4"; "Qp"]%string.
Fixpoint position_of (s : string) (l : list string) (i : Z) : Z := match l with [] => 15%Z | a :: l' => if String.eqb a s then i else position_of s l' (i + 1)%Z end.
Definition factor_id (k : factor) : Z := match k with Index i => i | Name w => position_of (capitalize w) tfact1 0 end.

(* argmax of a float array: the first largest value *)
Fixpoint argmax_from (l : list R) (i : nat) (best : R) (at_ : nat) : nat :=
  match l with [] => at_ | v :: l' => if Rlt_dec best v then argmax_from l' (S i) v i else argmax_from l' (S i) best at_ end.
Definition argmaxR (l : list R) : nat := match l with [] => 0%nat | v :: l' => argmax_from l' 1 v 0 end.

(* the moments in Hz: index k = 0..4, 3779-3781; and m_1, m_10 and m_11, 3784-3789 *)
Record momenta := Momenta { mom : nat -> R; m_1 : R; mij : nat -> R; m_10 : R; m_11 : R }.
Definition positive_part (s : spectrum) : spectrum :=
  let l := filter (fun p => if Rlt_dec 0 (fst p) then true else false) (combine (sargs s) (sdata s)) in Spectrum (map snd l) (map fst l) (freqtype s).
Definition momenta_of (T : R) (s : spectrum) : momenta :=
  let m := fst (moment 4 false 0 s) in
  let mm := fst (moment 8 false 1 s) in
  let p := positive_part s in
  let over g := simps (map2 g (sargs p) (sdata p)) (sargs p) in
  Momenta (fun k => at_R m k / (2 * PI) ^ k)
          (over (fun f v => v / f) * 2 * PI)
          (fun k => at_R mm k / T / ((2 * PI) ^ k / (2 * PI)))
          (over (fun f v => v ^ 2 / f) * (2 * PI) ^ 2 / T)
          (over (fun f v => v ^ 2 / f ^ 2) * (2 * PI) ^ 3 / T).

(* 3791-3826 *)
Definition characteristics (g : R) (q : momenta) (s : spectrum) : list R :=
  let m := mom q in let f := sargs s in let v := sdata s in
  let Hm0 := 4 * sqrt (m 0%nat) in
  let Tm01 := m 0%nat / m 1%nat in
  let Tm02 := sqrt (m 0%nat / m 2%nat) in
  let Tm24 := sqrt (m 2%nat / m 4%nat) in
  let Tm_10 := m_1 q / m 0%nat in
  let Tm12 := m 1%nat / m 2%nat in
  let maxS := at_R v (argmaxR v) in
  let Tp := 2 * PI / at_R f (argmaxR v) in
  let Ss := 2 * PI * Hm0 / g / Tm02 ^ 2 in
  let Sp := 2 * PI * Hm0 / g / Tp ^ 2 in
  let Ka := sqrt (simps (map2 (fun w y => y * cos (w * Tm02)) f v) f ^ 2 + simps (map2 (fun w y => y * sin (w * Tm02)) f v) f ^ 2) / m 0%nat in
  let Rs := (interp f v (146 / 10000 * 2 * PI) + interp f v (195 / 10000 * 2 * PI) + interp f v (244 / 10000 * 2 * PI)) / 3 / maxS in
  let Tp2 := 2 * PI * simps (map (fun y => y ^ 4) v) f / simps (map2 (fun w y => w * y ^ 4) f v) f in
  let alpha1 := Tm24 / Tm02 in
  let eps2 := sqrt (Tm01 / Tm12 - 1) in
  let eps4 := sqrt (1 - alpha1 ^ 2) in
  let Qp := 2 / m 0%nat ^ 2 * simps (map2 (fun w y => w * y ^ 2) f v) f in
  [Hm0; Tm01; Tm02; Tm24; Tm_10; Tp; Ss; Sp; Ka; Rs; Tp2; alpha1; eps2; eps4; Qp].

(* 3844-3870 the variances *)
Definition variances (g : R) (q : momenta) : list num :=
  let m := mom q in let c := mij q in
  let m0 := m 0%nat in let m1 := m 1%nat in let m2 := m 2%nat in let m4 := m 4%nat in
  let Tm01 := m0 / m1 in let Tm12 := m1 / m2 in let alpha1 := sqrt (m2 / m4) / sqrt (m0 / m2) in
  let eps2 := sqrt (Tm01 / Tm12 - 1) in let eps4 := sqrt (1 - alpha1 ^ 2) in
  [Some (4 * c 0%nat / m0);
   Some (c 0%nat / m1 ^ 2 - 2 * m0 * c 1%nat / m1 ^ 3 + m0 ^ 2 * c 2%nat / m1 ^ 4);
   Some (1 / 4 * (c 0%nat / (m0 * m2) - 2 * c 2%nat / m2 ^ 2 + m0 * c 4%nat / m2 ^ 3));
   Some (1 / 4 * (c 4%nat / (m2 * m4) - 2 * c 6%nat / m4 ^ 2 + m2 * c 8%nat / m4 ^ 3));
   Some (m_11 q / m0 ^ 2 + (m_1 q / m0 ^ 2) ^ 2 * c 0%nat - 2 * m_1 q / m0 ^ 3 * m_10 q);
   None;
   Some ((8 * PI / g) ^ 2 * (m2 ^ 2 / (4 * m0 ^ 3) * c 0%nat + c 4%nat / m0 - m2 / m0 ^ 2 * c 2%nat));
   None; None; None; None;
   Some (m2 ^ 2 * c 0%nat / (4 * m0 ^ 3 * m4) + c 4%nat / (m0 * m4) + c 8%nat * m2 ^ 2 / (4 * m0 * m4 ^ 3) - m2 * c 2%nat / (m0 ^ 2 * m4)
         + m2 ^ 2 * c 4%nat / (2 * m0 ^ 2 * m4 ^ 2) - m2 * c 6%nat / m0 / m4 ^ 2);
   Some ((m2 ^ 2 * c 0%nat / 4 + (m0 * m2 / m1) ^ 2 * c 2%nat + m0 ^ 2 * c 4%nat / 4 - m2 ^ 2 * m0 * c 1%nat / m1 + m0 * m2 * c 2%nat / 2
          - m0 ^ 2 * m2 / m1 * c 3%nat) / eps2 ^ 2 / m1 ^ 4);
   Some ((m2 ^ 2 * c 0%nat / (4 * m0 ^ 2) + c 4%nat + m2 ^ 2 * c 8%nat / (4 * m4 ^ 2) - m2 * c 2%nat / m0 + m2 ^ 2 * c 4%nat / (2 * m0 * m4) - m2 * c 6%nat / m4)
         * m2 ^ 2 / (m0 * m4 * eps4) ^ 2);
   None].
(* 3874-3877 *)
Definition covariances (q : momenta) : list R :=
  let m := mom q in let c := mij q in
  let m0 := m 0%nat in let m1 := m 1%nat in let m2 := m 2%nat in
  [2 / (sqrt m0 * m1) * (c 0%nat - m0 * c 1%nat / m1);
   1 / sqrt m2 * (c 0%nat / m0 - c 2%nat / m2);
   1 / (2 * m1) * sqrt (m0 / m2) * (c 0%nat / m0 - c 2%nat / m2 - c 1%nat / m1 + m0 * c 3%nat / (m1 * m2))].
(* 3879-3888: entry (i, k) of R1; R1[0, 2:4] = S0[:2] and R1[1, 2] = S0[2]; rows 0 and 1 are copied into the columns 0 and 1 *)
Definition upper_entry (g : R) (q : momenta) (i k : nat) : num :=
  if (i =? k)%nat then nth i (variances g q) None
  else match i, k with
       | 0%nat, 2%nat => Some (at_R (covariances q) 0)
       | 0%nat, 3%nat => Some (at_R (covariances q) 1)
       | 1%nat, 2%nat => Some (at_R (covariances q) 2)
       | _, _ => None
       end.
Definition cov_entry (g : R) (q : momenta) (i k : nat) : num :=
  if ((k <? i) && (k <? 2))%nat%bool then upper_entry g q k i else upper_entry g q i k.
Definition characteristic (fact : list factor) (T g : R) (s : spectrum) : res (list R * list (list num) * list string) :=
  let nfact := map factor_id fact in
  if existsb (fun i => ((14 <? i) || (i <? 0))%Z%bool) nfact then Err ValueError
  else
    let q := momenta_of T s in
    let ix := map Z.to_nat nfact in
    Ok (map (at_R (characteristics g q s)) ix, map (fun i => map (cov_entry g q i) ix) ix, map (fun i => nth i tfact1 EmptyString) ix).
