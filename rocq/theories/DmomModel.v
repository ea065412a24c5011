(* Model of the moments and the rotation of directional spectra: SpecData2D.moment and rotate
   (src/wafo/spectrum/core.py:4019-4297) over exact reals; scipy's simps as in SpectModel. *)
From Coq Require Import Reals List ZArith Bool String Ascii.
From Verif Require Import Base PolyModel ProcModel SpectModel.
Import ListNotations.
Local Open Scope string_scope.
Local Open Scope list_scope.
Local Open Scope R_scope.

(* the argument args: a tuple, as tospecdata2d makes it (spectrum/models.py:2049), or a list *)
Inductive pair_of := Tuple (a0 a1 : list R) | Listed (a0 a1 : list R).
Definition first_of (p : pair_of) : list R := match p with Tuple a _ | Listed a _ => a end.
Definition second_of (p : pair_of) : list R := match p with Tuple _ b | Listed _ b => b end.
(* a two dimensional spectrum: type, one row of data for each direction, args, phi, and the first and last value of g (the constant of gravity
   when there is no attribute g) *)
Record spec2 := Spec2 { stype : string; rows : list (list R); sargs2 : pair_of; sphi : R; gx : R; gy : R }.

(* 4213 vari.lower(); only the membership of x, y and t is used afterwards *)
Definition lower (c : ascii) : ascii := let n := nat_of_ascii c in if ((65 <=? n) && (n <=? 90))%nat%bool then ascii_of_nat (n + 32) else c.
Definition mentions (c : ascii) (v : string) : bool := existsb (fun a => Ascii.eqb (lower a) c) (list_ascii_of_string v).
Definition variables (nr : Z) (vari : option string) : res string :=
  match vari with
  | None => Ok (if (nr <=? 1)%Z then "x" else "xt")%string
  | Some EmptyString => Err IndexError                       (* vari[0] *)
  | Some v => Ok v
  end.
(* simps(S * f(theta), x=theta, axis=0) *)
Definition over_angles (S : list (list R)) (th : list R) (nw : nat) (f : R -> R) : list R :=
  map (fun j => simps (map2 (fun row t => at_R row j * f t) S th) th) (seq 0 nw).
(* k(w) * A, and its name *)
Definition term (w : list R) (name : string) (k : R -> R) (A : list R) : string * list R := (name, map2 (fun w a => k w * a) w A).
Definition when {A} (b : bool) (l : list A) : list A := if b then l else [].
(* 4223-4296 with w, theta and the data; x, y, t tell which variables are wanted *)
Definition moment_terms (w th : list R) (S : list (list R)) (gx gy : R) (nr : Z) (x y t : bool) : list (string * list R) :=
  let kx := fun w => w ^ 2 / gx in
  let ky := fun w => w ^ 2 / gy in
  let I := over_angles S th (List.length w) in
  let T := term w in
  let Sw := I (fun _ => 1) in
  let Sc := I cos in let Ss := I sin in
  let Sc2 := I (fun a => cos a ^ 2) in let Ss2 := I (fun a => sin a ^ 2) in let Scs := I (fun a => cos a * sin a) in
  let Sc3 := I (fun a => cos a ^ 3) in let Sc4 := I (fun a => cos a ^ 4) in let Ss3 := I (fun a => sin a ^ 3) in let Ss4 := I (fun a => sin a ^ 4) in
  let Sc2s := I (fun a => cos a ^ 2 * sin a) in let Sc3s := I (fun a => cos a ^ 3 * sin a) in
  let Scs2 := I (fun a => cos a * sin a ^ 2) in let Scs3 := I (fun a => cos a * sin a ^ 3) in let Sc2s2 := I (fun a => cos a ^ 2 * sin a ^ 2) in
  when (0 <? nr)%Z (
    when x [T "mx" kx Sc] ++ when y [T "my" ky Ss] ++ when t [T "mt" (fun w => w) Sw] ++
    when (1 <? nr)%Z (
      when x [T "mxx" (fun w => kx w ^ 2) Sc2] ++ when y [T "myy" (fun w => ky w ^ 2) Ss2] ++ when t [T "mtt" (fun w => w ^ 2) Sw] ++
      when (x && y) [T "mxy" (fun w => kx w * ky w) Scs] ++
      when (x && t) [T "mxt" (fun w => kx w * w) Sc] ++
      when (y && t) [T "myt" (fun w => ky w * w) Sc] ++
      when (3 <? nr)%Z (
        when x [T "mxxxx" (fun w => kx w ^ 4) Sc4] ++ when y [T "myyyy" (fun w => ky w ^ 4) Ss4] ++ when t [T "mtttt" (fun w => w ^ 4) Sw] ++
        when (x && y) [T "mxxxy" (fun w => kx w ^ 3 * ky w) Sc3s; T "mxxyy" (fun w => kx w ^ 2 * ky w ^ 2) Sc2s2; T "mxyyy" (fun w => kx w * ky w ^ 3) Scs3] ++
        when (x && t) [T "mxxxt" (fun w => kx w ^ 3 * w) Sc3; T "mxxtt" (fun w => kx w ^ 2 * w ^ 2) Sc2; T "mxttt" (fun w => kx w * w ^ 3) Sc] ++
        when (y && t) [T "myyyt" (fun w => ky w ^ 3 * w) Ss3; T "myytt" (fun w => ky w ^ 2 * w ^ 2) Ss2; T "myttt" (fun w => ky w * w ^ 3) Ss] ++
        when (x && y && t) [T "mxxyt" (fun w => kx w ^ 2 * ky w * w) Sc2s; T "mxyyt" (fun w => kx w * ky w ^ 2 * w) Scs2; T "mxytt" (fun w => kx w * ky w * w ^ 2) Scs]))).
(* 4124-4297 moment.  For a type that does not end with 'dir' the code calls tospecdata, which returns None (4009-4010), so that S1.args raises
   AttributeError.  The shapes of data and args agree *)
Definition moment2 (s : spec2) (nr : Z) (vari : option string) : res (list R * list string) :=
  if negb (String.eqb (stype s) "dir" || String.eqb (stype s) "encdir" || String.eqb (stype s) "k2d")%string then Err ValueError
  else
    let* v := variables nr vari in
    if String.eqb (stype s) "k2d" then Err AttributeError
    else
      let w := first_of (sargs2 s) in
      let th := map (fun t => t - sphi s) (second_of (sargs2 s)) in
      let Sw := over_angles (rows s) th (List.length w) (fun _ => 1) in
      let ts := moment_terms w th (rows s) (gx s) (gy s) nr (mentions "x" v) (mentions "y" v) (mentions "t" v) in
      Ok (simps Sw w :: map (fun p => simps (snd p) w) ts, "m0"%string :: map fst ts).

(* np.mod(a, 2 * pi) *)
Definition mod2pi (a : R) : R := a - 2 * PI * IZR (floor (a / (2 * PI))).
(* 4063-4076 rotate(phi) with rotateGrid=False for a spectrum whose type ends with 'dir': the error, if any, and the object afterwards;
   an assignment to args[0] raises TypeError for a tuple.  theta[0] raises IndexError when theta is empty *)
Definition rotate (s : spec2) (phi : R) : option exn * spec2 :=
  let p := mod2pi (sphi s + phi + PI) - PI in
  let s1 := Spec2 (stype s) (rows s) (sargs2 s) p (gx s) (gy s) in
  match first_of (sargs2 s) with
  | [] => (Some IndexError, s1)
  | t0 :: _ =>
      let phi0 := t0 + PI in
      match sargs2 s with
      | Tuple _ _ => (Some TypeError, s1)
      | Listed a0 a1 => (None, Spec2 (stype s) (rows s) (Listed (map (fun t => t - phi0) a0) a1) (mod2pi (p + phi0 + PI) - PI) (gx s) (gy s))
      end
  end.
