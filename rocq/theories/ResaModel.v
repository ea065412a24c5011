(* Model of SpecData1D.resample (src/wafo/spectrum/core.py:3420-3531) over exact reals.
   A spectrum is its vectors args and data; an exception leaves the spectrum as it is at that moment. *)
From Coq Require Import Reals List ZArith String Bool.
From Verif Require Import Base KdeModel ProcModel DiscModel SlopesModel.
Import ListNotations.
Local Open Scope R_scope.

Record spectrum := Spectrum { args : list R; data : list R; hertz : bool }.       (* hertz: freqtype == 'f' *)
Inductive kind := Stine | Linear | Cubic | Unknown.

Definition diff (w : list R) : list R := map (fun p => snd p - fst p) (combine w (tl w)).
Definition min_diff (w : list R) : res R := match diff w with [] => Err ValueError | d => Ok (minR d) end.
(* misc.py:2170-2190: 2 ** nextpow2(n) of a number n >= 0 (c44) *)
Definition pow2_up (n : Z) : Z := (2 ^ Z.log2_up n)%Z.
(* 3464-3468: the while loop; q = dTold * (n - 1) *)
Fixpoint doublings (fuel : nat) (q dt : R) (nmax nfft : Z) : res Z :=
  match fuel with
  | O => Err OutOfFuel
  | S fuel' => if (gtb (q / IZR nfft) dt && (nfft <? nmax - 1)%Z)%bool then doublings fuel' q dt nmax (nfft * 2) else Ok nfft
  end.
(* 3482-3492: zeros above the old Nyquist frequency *)
Definition pad_above (w s : list R) (old new dw : R) : list R * list R :=
  if gtb (new - old) 0
  then if gtb (new - old) dw then (w ++ [old + dw; new], s ++ [0; 0]) else (w ++ [new], s ++ [0])
  else (w, s).
(* 3494-3503: zeros down to the frequency zero *)
Definition pad_below (w s : list R) (dw : R) : list R * list R :=
  let w0 := hd 0 w in
  if gtb w0 0
  then if gtb w0 dw then (0 :: (w0 - dw) :: w, 0 :: 0 :: s) else (0 :: w, 0 :: s)
  else (w, s).
(* scipy.interpolate.interp1d(x, y, kind)(t): as many values as abscissae, at least [least] of them, and t within their range *)
Definition within (x : list R) (t : R) : bool := (leb (hd 0 x) t && leb t (last x 0))%bool.
Definition checked (least : nat) (x y : list R) : res unit :=
  if (negb (List.length x =? List.length y)%nat || (List.length x <? least)%nat)%bool then Err ValueError else Ok tt.
Definition evaluated (f : R -> R) (x t : list R) : res (list R) := if forallb (within x) t then Ok (map f t) else Err ValueError.
(* 3526-3530 *)
Definition interpolated (cubic : list R -> list R -> R -> R) (m : kind) (w s t : list R) : res (list R) :=
  match m with
  | Stine => let* f := StinemanInterp Stineman false w s None in Ok (map f t)
  | Linear => let* _ := checked 1 w s in evaluated (interp w s) w t
  | Cubic => let* _ := checked 4 w s in evaluated (cubic w s) w t
  | Unknown => Err NotImplementedError
  end.
(* 3450-3524: the padded spectrum, the new Nyquist frequency and the new number of frequencies; None if nothing is done.
   [cubic] is the spline of interp1d and [tiny] the smallest float *)
Definition plan (cubic : list R -> list R -> R -> R) (tiny : R) (sp : spectrum) (dt : option R) (nmin nmax : Z) : res (option (list R * list R * R * Z)) :=
  let w := args sp in
  let n := Z.of_nat (List.length w) in
  let* old := from_end w 1 in
  let c := if hertz sp then 0.5 else PI in
  let dtold := c / old in
  let dt := match dt with Some d => d | None => dtold end in
  let* nfft := doublings (S (Z.to_nat nmax)) (dtold * IZR (n - 1)) dt nmax (pow2_up (Z.max (n - 1) (nmin - 1))) in
  let nfft := (nfft + 1)%Z in
  let new := c / dt in
  let* second := if gtb (new - old) 0 then Ok 0 else geti w 1 in
  if (gtb (new - old) 0 || gtb second 0 || negb (nfft =? n)%Z || negb (req dt dtold) || existsb (fun d => gtb (Rabs d) (1/100000000)) (diff w))%bool
  then
    let* dw := min_diff w in
    let (w, s) := pad_above w (data sp) old new dw in
    let (w, s) := pad_below w s dw in
    let* _ := checked 4 w s in
    if (within w 0 && within w new)%bool then
      let* x := discretize (cubic w s) tiny 0 new (5/1000) 5 "linear" in
      let* dwmin := min_diff (fst x) in
      let nfft' := (pow2_up (ceil (new / dwmin)) + 1)%Z in
      Ok (Some (w, s, new, if (nfft <? nfft')%Z then nfft' else nfft))
    else Err ValueError
  else Ok None.
(* 3420-3531 resample *)
Definition resample (cubic : list R -> list R -> R -> R) (tiny : R) (sp : spectrum) (dt : option R) (nmin nmax : Z) (m : kind) : spectrum * res unit :=
  match plan cubic tiny sp dt nmin nmax with
  | Err e => (sp, Err e)
  | Ok None => (sp, Ok tt)
  | Ok (Some (w, s, new, nfft)) =>
    let args' := linspace 0 new (Z.to_nat nfft) in
    match interpolated cubic m w s args' with
    | Err e => (Spectrum args' (data sp) (hertz sp), Err e)
    | Ok v => (Spectrum args' (map (fun y => Rmax y 0) v) (hertz sp), Ok tt)
    end
  end.
