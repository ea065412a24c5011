(* Linear wave theory, and what the functions of wave_theory are supposed to return *)
From Coq Require Import Reals ZArith String Ascii.
From Coquelicot Require Import Coquelicot.
From Verif Require Import Base WaveModel.
Local Open Scope R_scope.

(* the hyperbolic function selected by s *)
Definition hyper (s x : R) : R := if Rlt_dec s 0 then sinh x else cosh x.
(* w^2 = g k tanh(k h) *)
Definition dispersion_relation (g h w k : R) : Prop := w ^ 2 = g * (k * tanh (k * h)).

(* A plane wave of amplitude 1 and frequency w travelling in direction (cx, cy) with wave number k over depth h: what a sensor of
   each type at (x, y), at height lev above the bottom, reads at time t, as a complex number *)
Record wave := Wave { omega : R; wavenumber : R; dirx : R; diry : R; deep : R; gravity : R; density : R }.
Definition carrier (v : wave) (x y t : R) : C :=
  let a := (x * dirx v + y * diry v) * wavenumber v - omega v * t in (cos a, sin a).
(* ratios of the depth profile *)
Definition cc (v : wave) (lev : R) : R := cosh (wavenumber v * lev) / cosh (wavenumber v * deep v).
Definition cs (v : wave) (lev : R) : R := cosh (wavenumber v * lev) / sinh (wavenumber v * deep v).
Definition ss (v : wave) (lev : R) : R := sinh (wavenumber v * lev) / sinh (wavenumber v * deep v).
(* multiples by a real and by a real times i *)
Definition re (r : R) (z : C) : C := (r * fst z, r * snd z).
Definition im (r : R) (z : C) : C := (- (r * snd z), r * fst z).
Definition elevation (v : wave) (x y t : R) : C := carrier v x y t.
Definition pressure (v : wave) (x y lev t : R) : C := re (density v * gravity v * cc v lev) (carrier v x y t).
Definition velocity_x (v : wave) (x y lev t : R) : C := re (omega v * cs v lev * dirx v) (carrier v x y t).
Definition velocity_y (v : wave) (x y lev t : R) : C := re (omega v * cs v lev * diry v) (carrier v x y t).
Definition velocity_z (v : wave) (x y lev t : R) : C := im (- (omega v * ss v lev)) (carrier v x y t).
Definition field (v : wave) (s : sensor) (x y lev t : R) : C :=
  let e := carrier v x y t in
  let w := omega v in
  let k := wavenumber v in
  match s with
  | N => elevation v x y t
  | N_t => im (- w) e
  | N_tt => re (- w ^ 2) e
  | N_x => im (k * dirx v) e
  | N_y => im (k * diry v) e
  | N_xx => re (- (k * dirx v) ^ 2) e
  | N_yy => re (- (k * diry v) ^ 2) e
  | N_xy => re (- (k ^ 2 * dirx v * diry v)) e
  | P => pressure v x y lev t
  | U => velocity_x v x y lev t
  | V => velocity_y v x y lev t
  | W => velocity_z v x y lev t
  | U_t => im (- (w ^ 2 * cs v lev * dirx v)) e
  | V_t => im (- (w ^ 2 * cs v lev * diry v)) e
  | W_t => re (- (w ^ 2 * ss v lev)) e
  | X_p => im (cs v lev * dirx v) e
  | Y_p => im (cs v lev * diry v) e
  | Z_p => re (ss v lev) e
  end.
(* d is the derivative of the complex function f at x *)
Definition has_derivative (f : R -> C) (x : R) (d : C) : Prop :=
  is_derive (fun t => fst (f t)) x (fst d) /\ is_derive (fun t => snd (f t)) x (snd d).

(* height of the sensor above the bottom for the three conventions *)
Definition level (tf : transfer) (h : R) : R :=
  if Z.eqb (igam tf) 1 then h + pz tf else if Z.eqb (igam tf) 2 then h - pz tf else pz tf.
(* the wave seen by the transfer function of frequency w and direction theta *)
Definition wave_of (tf : transfer) (h w k theta : R) : wave :=
  Wave w k (bet tf * cos (theta - thetax tf * PI / 180 + PI / 2)) (bet tf * sin (theta - thetay tf * PI / 180)) h (grav tf) (rho tf).
(* sensors that depend on the vertical position *)
Definition below_surface (s : sensor) : bool :=
  match s with P | U | V | W | U_t | V_t | W_t | X_p | Y_p | Z_p => true | _ => false end.

(* What w2k is to return for frequency w and depth h: the deep water value from depth 10^25 on, otherwise a wave number of the sign of
   w whose residual in the dispersion relation (divided by g) is at most four times the tolerance *)
Definition tolerance (rtol atol k : R) : R := Rmax (rtol * Rabs k) atol.
Definition solves (g rtol atol w : R) (h : depth) (k : R) : Prop :=
  match h with
  | Deep => k = sgn w * (w ^ 2 / g)
  | Depth h => if Rle_dec (10 ^ 25) h then k = sgn w * (w ^ 2 / g)
               else (w = 0 -> k = 0) /\ (w <> 0 -> 0 < w * k) /\ Rabs (k * tanh (k * h) - w ^ 2 / g) <= 4 * tolerance rtol atol k
  end.
Definition positive_depth (h : depth) : Prop := match h with Deep => True | Depth h => 0 < h end.

(* the documented names of the sensors, in the order of their numbers *)
Definition documented : list (string * sensor) :=
  [("n", N); ("n_t", N_t); ("n_tt", N_tt); ("n_x", N_x); ("n_y", N_y); ("n_xx", N_xx); ("n_yy", N_yy); ("n_xy", N_xy); ("p", P); ("u", U); ("v", V); ("w", W);
   ("u_t", U_t); ("v_t", V_t); ("w_t", W_t); ("x_p", X_p); ("y_p", Y_p); ("z_p", Z_p)]%string.
(* the first letter as a capital *)
Definition capital (s : string) : string :=
  match s with
  | String c s' => String (let n := Ascii.nat_of_ascii c in if ((97 <=? n) && (n <=? 122))%nat then Ascii.ascii_of_nat (n - 32) else c) s'
  | EmptyString => EmptyString
  end.
