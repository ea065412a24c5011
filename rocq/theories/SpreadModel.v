(* The directional spreading functions of src/wafo/spectrum/models.py.  Arithmetic is exact; theta, w and the main directions are lists
   (1-D arrays) and theta is not empty.  scipy's gammaln and ive are parameters, and so are the three numerical root finders fourier2a,
   fourier2k and fourier2b (1810-1883), which return one number for each entry of their argument. *)
From Coq Require Import Reals Lra List Bool String Ascii.
From Coquelicot Require Import Complex.
From Verif Require Import Base PolyModel OrthoModel DftModel.
Import ListNotations.
Local Open Scope R_scope.

(* x ** e for a base that is not negative and an exponent that is not negative *)
Definition pw (b e : R) : R := if Req_EM_T e 0 then 1 else if Rlt_dec 0 b then Rpower b e else 0.
(* models.py:1551, 1556 and 1578: mod(x + pi, 2 * pi) - pi; the remainder has the sign of the divisor *)
Definition pymod (x m : R) : R := x - m * IZR (Int_part (x / m)).
Definition wrap (x : R) : R := pymod (x + PI) (2 * PI) - PI.

(* models.py:1512-1521 and 1539-1541: the first letter of the type selects the function *)
Inductive kind := Cos2s | Box | Mises | Poisson | Sech2 | WrapNorm.
Definition kind_of (type : string) : res kind :=
  match type with
  | EmptyString => Err IndexError
  | String a _ =>
      if Ascii.eqb a "c" then Ok Cos2s else if Ascii.eqb a "b" then Ok Box else if Ascii.eqb a "m" then Ok Mises else if Ascii.eqb a "v" then Ok Mises
      else if Ascii.eqb a "p" then Ok Poisson else if Ascii.eqb a "s" then Ok Sech2 else if Ascii.eqb a "w" then Ok WrapNorm else Err KeyError
  end.
(* models.py:1523-1537: the property method.  The argument is None, an integer or a string *)
Inductive pyval := PNone | PInt (i : Z) | PStr (s : string).
Inductive meth := FreqIndependent | Mitsuyasu | Donelan | Banner.
Definition lower (a : ascii) : ascii := let n := nat_of_ascii a in if (Nat.leb 65 n && Nat.leb n 90)%bool then ascii_of_nat (n + 32) else a.
Definition set_method (v : pyval) : res meth :=
  match v with
  | PNone => Ok FreqIndependent
  | PInt i => if Z.eqb i 0 then Ok FreqIndependent else if Z.eqb i 1 then Ok Mitsuyasu else if Z.eqb i 2 then Ok Donelan else if Z.eqb i 3 then Ok Banner else Err ValueError
  | PStr EmptyString => Err IndexError
  | PStr (String a _) =>
      let a := lower a in
      if Ascii.eqb a "n" then Ok FreqIndependent else if Ascii.eqb a "m" then Ok Mitsuyasu else if Ascii.eqb a "d" then Ok Donelan
      else if Ascii.eqb a "b" then Ok Banner else Err ValueError
  end.
Definition get_method (m : meth) : string :=
  match m with FreqIndependent => "frequency_independent" | Mitsuyasu => "mitsuyasu" | Donelan => "donelan" | Banner => "banner" end.

(* models.py:1891-1901 and 1929-1933 for wn >= 0 and wn_lo >= 0; the upper limit is None when infinite *)
Record spread_law := Law { s_a : R; s_b : R; m_a : R; m_b : R; wn_lo : R; wn_c : R; wn_up : option R }.
Definition mitsuyasu (p : spread_law) (wn : R) : R :=
  let s := if Rle_dec wn (wn_lo p) then 0 else if Rle_dec wn (wn_c p) then s_a p * Rpower wn (m_a p) else s_b p * Rpower wn (m_b p) in
  match wn_up p with None => s | Some u => if Rlt_dec u wn then 0 else s end.
(* models.py:1903-1927 and 1935-1940: donelan and banner both end in self.r1ofsech2, which does not exist *)
Definition spread_values (m : meth) (p : spread_law) (wn : list R) : res (list R) :=
  match m with
  | FreqIndependent => Ok [s_a p]
  | Mitsuyasu => Ok (map (mitsuyasu p) wn)
  | Donelan => Err AttributeError
  | Banner => Err AttributeError
  end.
(* models.py:1801-1808 fourier2x; 1885-1889 fourier2d, where None is inf *)
Definition fourier2x (r1 : list R) : res (list R) := if existsb (fun x => if Rle_dec 1 x then true else false) r1 then Err ValueError else Ok r1.
Definition fourier2d (r1 : R) : option R := let r := Rmin (Rmax r1 0) 1 in if Rle_dec r 0 then None else Some (sqrt (- 2 * ln r)).
(* models.py:1771-1799: the parameter of the distribution: an infinite one occurs for the wrapped normal only *)
Definition fourier2distpar (solveA solveK solveB : R -> R) (k : kind) (r1 : list R) : res (list (option R)) :=
  match k with
  | Cos2s => Err TypeError
  | Box => Ok (map (fun r => Some (solveA r)) r1)
  | Mises => Ok (map (fun r => Some (solveK r)) r1)
  | Poisson => let* x := fourier2x r1 in Ok (map Some x)
  | Sech2 => Ok (map (fun r => Some (solveB r)) r1)
  | WrapNorm => Ok (map fourier2d r1)
  end.
(* models.py:1942-1975 spread_parameter_s *)
Definition spread_parameter (solveA solveK solveB : R -> R) (k : kind) (m : meth) (p : spread_law) (wn : list R) : res (list (option R)) :=
  let* s := spread_values m p wn in
  if existsb (fun x => if Rlt_dec x 0 then true else false) s then Err ValueError
  else match k with
       | Cos2s => Ok (map Some s)
       | _ => fourier2distpar solveA solveK solveB k (map (fun s => Rabs (s / (s + 1))) s)
       end.

(* the densities: models.py:1607-1613 cos2s, 1637-1640 poisson, 1707-1712 sech2, 1737-1740 mises, 1765-1767 box *)
Definition sech (x : R) : R := 1 / cosh x.
Definition density (gammaln : R -> R) (ive : nat -> R -> R) (k : kind) (par : option R) (th : R) : R :=
  match par with
  | None => 0
  | Some x =>
      match k with
      | Cos2s => exp (gammaln (x + 1) - gammaln (x + 1 / 2)) / (2 * sqrt PI) * pw (cos (th / 2)) (2 * x)
      | Poisson => (1 - x ^ 2) / (1 - (2 * cos th - x) * x) / (2 * PI)
      | Sech2 => let NB := tanh (PI * x) in let NB := if Req_EM_T NB 0 then 1 else NB in 1 / 2 * x * sech (x * th) ^ 2 / NB
      | Mises => exp (x * (cos th - 1)) / (2 * PI * ive 0%nat x)
      | Box => (if Rle_dec (- x) th then if Rle_dec th x then 1 else 0 else 0) / (2 * x)
      | WrapNorm => 0
      end
  end.
(* models.py:1666-1682 wrap_norm: the j-th value of a column; [th] is the first normalized angle of the column.  exp(-inf) = 0 *)
Definition wrap_norm (Nt : nat) (par : option R) (th : R) (j : nat) : R :=
  let Fcof n := match n with
                | O => 1 / 2 / PI
                | _ => match par with None => 0 | Some x => exp (- INR (n ^ 2) * (x ^ 2 / 2)) end / PI
                end in
  let D := fst (fft Nt (fun n => Cmult (RtoC (Fcof n)) (Cconj (cis (INR n * th)))) j) in
  if Rlt_dec D 0 then 0 else D.

(* models.py:1561-1564: theta0 is a function, applied to each frequency, or an array *)
Inductive direction := Callable (f : R -> R) | Array (l : list R).
Definition main_direction (d : direction) (wn : list R) : list R := match d with Callable f => map f wn | Array l => l end.
(* an entry of an array with one entry or with one entry for each column *)
Definition entry {A} (l : list A) (i : nat) (d : A) : A := match l with [x] => x | _ => nth i l d end.
(* models.py:1539-1583: the matrix of __call__, one row for each angle *)
Definition spreading (gammaln : R -> R) (ive : nat -> R -> R) (solveA solveK solveB : R -> R) (type : string) (theta0 : direction) (method : pyval) (p : spread_law)
  (theta w : list R) (wc : R) : res (list (list R)) :=
  let* m := set_method method in
  let* k := kind_of type in
  let wn := map (fun w => w / wc) w in
  let th := map wrap theta in
  let th0 := main_direction theta0 wn in
  let freq_dep := Nat.eqb (List.length th0) (List.length wn) in
  if (negb freq_dep && negb (Nat.eqb (List.length th0) 1))%bool then Err ValueError
  else
    let* par := spread_parameter solveA solveK solveB k m p wn in
    let cols := if (freq_dep || negb (Nat.eqb (List.length par) 1))%bool then List.length wn else 1%nat in
    let TH t i := wrap (t - entry th0 i 0) in
    Ok (map (fun jt => map (fun i => match k with
                                     | WrapNorm => wrap_norm (List.length theta) (entry par i None) (TH (nth 0 th 0) i) (fst jt)
                                     | _ => density gammaln ive k (entry par i None) (TH (snd jt) i)
                                     end) (seq 0 cols))
            (combine (seq 0 (List.length th)) th)).

(* models.py:1994-2002 _check_theta; the warning is not modelled; [eps] is the machine epsilon *)
Definition check_theta (eps : R) (theta : list R) : res unit :=
  match theta with
  | [] => Err IndexError
  | t0 :: _ => if Rlt_dec eps (Rabs (Rabs (last theta 0 - t0) - 2 * PI)) then Err ValueError else Ok tt
  end.
(* models.py:2004-2056 tospecdata2d: the values of the directional spectrum; [spec] has one value for each frequency *)
Definition tospecdata2d (gammaln : R -> R) (ive : nat -> R -> R) (solveA solveK solveB : R -> R) (type : string) (theta0 : direction) (method : pyval) (p : spread_law)
  (eps : R) (theta w spec : list R) (wc : R) : res (list (list R)) :=
  let* _ := check_theta eps theta in
  let* D := spreading gammaln ive solveA solveK solveB type theta0 method p theta w wc in
  Ok (map (fun row => map (fun i => entry row i 0 * nth i spec 0) (seq 0 (List.length spec))) D).
