(* Model of the bivariate normal probabilities and of the distribution of local maxima (src/wafo/gaussian.py:400-455, 731-996) over exact reals.
   The literal twopi (813) is 2 pi, which it gives to 16 digits.  nan is None.  The limits are finite numbers. *)
From Coq Require Import Reals List ZArith Bool.
From Verif Require Import RvModel RvnModel PolyModel.
Import ListNotations.
Local Open Scope R_scope.

(* 731-752: the nodes without their sign and the weights, in units of 1e-16, 1e-17 or 1e-18 as written *)
Definition X6 : list R := map (fun z => - (IZR z / 10 ^ 16)) [9324695142031522; 6612093864662647; 2386191860831970]%Z.
Definition W6 : list R := map (fun z => IZR z / 10 ^ 16) [1713244923791705; 3607615730481384; 4679139345726904]%Z.
Definition X12 : list R := map (fun z => - (IZR z / 10 ^ 16)) [9815606342467191; 9041172563704750; 7699026741943050; 5873179542866171; 3678314989981802; 1252334085114692]%Z.
Definition W12 : list R := map (fun z => IZR z / 10 ^ 17) [4717533638651177; 10693932599531830; 16007832854334640; 20316742672306590; 23349253653835470; 24914704581340290]%Z.
Definition X20 : list R :=
  map (fun z => - (IZR z / 10 ^ 17)) [99312859918509490; 96397192727791380; 91223442825132590; 83911697182221880; 74633190646015080; 63605368072651500; 51086700195082710; 37370608871541960; 22778585114164510; 7652652113349733]%Z.
Definition W20 : list R :=
  map (fun z => IZR z / 10 ^ 17) [1761400713915212; 4060142980038694; 6267204833410906; 8327674157670475; 10193011981724040; 11819453196151840; 13168863844917660; 14209610931838210; 14917298647260370; 15275338713072590]%Z.

(* 920-921 *)
Definition fi (x : R) : R := / 2 * erfc (- x / sqrt 2).
Definition sumf (l : list R) : R := fold_right Rplus 0 l.
(* 828-832: for i, for sign in -1, 1 *)
Definition signed (X W : list R) (f : R -> R -> R) : R := sumf (map2 (fun x w => f (- x) w + f x w) X W).
(* 833-834 *)
Definition integrand (hk hs sn : R) : R := exp ((sn * hk - hs) / (1 - sn * sn)).
(* 820-855: one number with |r| < 0.925 *)
Definition rule (r : R) : list R * list R := if Rle_dec (75 / 100) r then (X20, W20) else if Rle_dec (3 / 10) r then (X12, W12) else (X6, W6).
Definition moderate (h k r : R) : R :=
  let asr := asin r in
  let '(X, W) := rule r in
  signed X W (fun x w => w * integrand (h * k) ((h ^ 2 + k ^ 2) / 2) (sin (asr * (x + 1) / 2))) * (asr / (2 * (2 * PI))) + fi (- h) * fi (- k).
(* 866-899: one number with 0.925 <= |r| < 1, before line 902; k and hk as changed in 858-861 *)
Definition raw (h k r : R) : R :=
  let hk := h * k in
  let a2 := (1 - r) * (1 + r) in
  let a := sqrt a2 in
  let b := Rabs (h - k) in
  let bs := b * b in
  let c := (4 - hk) / 8 in
  let d := (12 - hk) / 16 in
  let asr := - (bs / a2 + hk) / 2 in
  let v := if Rlt_dec (- 100) asr then a * exp asr * (1 - c * (bs - a2) * (1 - d * bs / 5) / 3 + c * d * a2 ^ 2 / 5) else 0 in
  let v := if Rlt_dec hk 100 then v - exp (- hk / 2) * sqrt (2 * PI) * fi (- b / a) * b * (1 - c * bs * (1 - d * bs / 5) / 3) else v in
  let a' := a / 2 in
  v + signed X20 W20 (fun x w =>
        let xs := (a' * (x + 1)) ^ 2 in
        let rs := sqrt (1 - xs) in
        let asr := - (bs / xs + hk) / 2 in
        if Rlt_dec (- 100) asr then a' * w * exp asr * (exp (- hk * (1 - rs) / (2 * (1 + rs))) / rs - (1 + c * xs * (1 + d * xs))) else 0).

Definition triple := (R * R * R)%type.      (* h, k, r *)
Definition lt_ (x y : R) : bool := if Rlt_dec x y then true else false.
Definition le_ (x y : R) : bool := if Rle_dec x y then true else false.
Definition is_moderate (t : triple) : bool := let '(_, _, r) := t in lt_ (Rabs r) (925 / 1000).
Definition is_near (t : triple) : bool := let '(_, _, r) := t in le_ (925 / 1000) (Rabs r) && le_ (Rabs r) 1.
(* nonzero(p) *)
Definition where_ {A} (p : A -> bool) (l : list A) : list nat := map fst (filter (fun q => p (snd q)) (combine (seq 0 (List.length l)) l)).
(* 858-861 *)
Definition turned (t : triple) : R := let '(_, k, r) := t in if lt_ r 0 then - k else k.
(* 809-855, 866-899 at one number *)
Definition start (t : triple) : option R :=
  let '(h, k, r) := t in
  if lt_ 1 (Rabs r) then None
  else if is_moderate t then Some (moderate h k r)
  else if lt_ (Rabs r) 1 then Some (raw h (turned t) r) else Some 0.
(* 902: bvn[k3] = -bvn[k3] / twopi, where k3 are places in k1 *)
Definition rescaled (ts : list triple) (bvn : list (option R)) : list (option R) :=
  let near := filter is_near ts in
  let k3 := where_ (fun t : triple => lt_ (Rabs (snd t)) 1) near in
  map (fun i => if existsb (Nat.eqb i) k3 then option_map (fun v => - v / (2 * PI)) (nth i bvn None) else nth i bvn None) (seq 0 (List.length bvn)).
(* 904-912 *)
Definition finish (t : triple) (v : option R) : option R :=
  let '(h, k, r) := t in
  if is_near t then
    if lt_ 0 r then option_map (fun v => v + fi (- Rmax h k)) v
    else option_map (fun v => - v + Rmax 0 (fi (- h) - fi (- turned t))) v
  else v.
(* 755-917 cdfnorm2d on arrays of the same shape, flattened *)
Definition cdfnorm2d (bs : list (R * R * R)) : list (option R) :=
  let ts := map (fun q : R * R * R => let '(b1, b2, r) := q in (- b1, - b2, r)) bs in
  map2 finish ts (rescaled ts (map start ts)).
(* for numbers *)
Definition cdfnorm2 (b1 b2 r : R) : option R := nth 0 (cdfnorm2d [(b1, b2, r)]) None.

(* 995-996 bvd *)
Definition bvd (cdf : R -> R -> R -> option R) (lo up r : R) : option R := cdf (- lo) (- up) r.
Definition osub (a b : option R) : option R := match a, b with Some a, Some b => Some (a - b) | _, _ => None end.
Definition oadd (a b : option R) : option R := match a, b with Some a, Some b => Some (a + b) | _, _ => None end.
(* 924-992 prbnorm2d for a = (a0, a1), b = (b0, b1); cdf is cdfnorm2d *)
Definition infin (lo up : R) : Z := (2 - (if Rlt_dec 37 up then 1 else 0) - 2 * (if Rlt_dec lo (- 37) then 1 else 0))%Z.
Definition prbnorm2d (cdf : R -> R -> R -> option R) (a0 a1 b0 b1 r : R) : option R :=
  if le_ a0 (- 37) && le_ 37 b0 && (le_ a1 (- 37) && le_ 37 b1) then Some 1
  else if le_ b0 a0 || le_ b1 a1 then Some 0
  else
    let bvd := bvd cdf in
    match infin a0 b0, infin a1 b1 with
    | 2%Z, 2%Z => oadd (osub (osub (bvd a0 a1 r) (bvd b0 a1 r)) (bvd a0 b1 r)) (bvd b0 b1 r)
    | 2%Z, 1%Z => osub (bvd a0 a1 r) (bvd b0 a1 r)
    | 1%Z, 2%Z => osub (bvd a0 a1 r) (bvd a0 b1 r)
    | 2%Z, 0%Z => osub (bvd (- b0) (- b1) r) (bvd (- a0) (- b1) r)
    | 0%Z, 2%Z => osub (bvd (- b0) (- b1) r) (bvd (- b0) (- a1) r)
    | 1%Z, 0%Z => bvd a0 (- b1) (- r)
    | 0%Z, 1%Z => bvd (- b0) a1 (- r)
    | 1%Z, 1%Z => bvd a0 a1 r
    | 0%Z, 0%Z => bvd (- b0) (- b1) r
    | _, _ => Some 1
    end.

(* 400-455 cdflomax for m0 > 0: the square root of a negative number is nan, and for alpha = 1 or -1 the quotient is infinite or, at 0, nan *)
Definition cdflomax (x alpha m0 : R) : option R :=
  if Rlt_dec (1 - alpha ^ 2) 0 then None
  else if Req_EM_T (1 - alpha ^ 2) 0 then
    if Req_EM_T x 0 then None
    else Some ((if Rlt_dec 0 x then 1 else 0) - alpha * exp (- x ^ 2 / 2 / m0) * (if Rlt_dec 0 (alpha * x) then 1 else 0))
  else
    let c1 := 1 / sqrt (1 - alpha ^ 2) * x / sqrt m0 in
    let c2 := alpha * c1 in
    Some (ndtr c1 - alpha * exp (- x ^ 2 / 2 / m0) * ndtr c2).
