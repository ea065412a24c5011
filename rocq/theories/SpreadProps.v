From Coq Require Import Reals Lra List String Ascii.
From Coquelicot Require Import Coquelicot.
From Verif Require Import Base PolyModel SpreadModel SpreadSpec SeaModel SeaSpec SeaCases SpreadProofs SpreadProofs3 SpreadProofs5 SpreadProofs6.
Import ListNotations.
Local Open Scope R_scope.

(* C117: the values of a spreading function are those of a density on the circle *)

Theorem c117_density : forall g ive sA sK sB type theta0 method p theta1 w wc D1 i k, log_gamma g -> bessel ive -> kind_of type = Ok k -> k <> WrapNorm ->
  spreading g ive sA sK sB type theta0 method p theta1 w wc = Ok D1 -> theta1 <> [] -> (i < List.length (hd [] D1))%nat ->
  exists s f, spread_at method p (nth i w 0 / wc) s
    /\ (forall theta, exists D, spreading g ive sA sK sB type theta0 method p theta w wc = Ok D /\ column_of D theta i f)
    /\ (solved ive sA sK sB k (s / (s + 1)) -> circular_density f (direction_at theta0 i (nth i w 0 / wc))
        /\ (k <> Sech2 -> first_coefficient f (direction_at theta0 i (nth i w 0 / wc)) (s / (s + 1)))).
Proof. exact (spreading_density). Qed.
Print Assumptions c117_density.

Theorem c117_wrapped : forall g ive sA sK sB type theta0 method p theta1 w wc D1 i N, kind_of type = Ok WrapNorm ->
  spreading g ive sA sK sB type theta0 method p theta1 w wc = Ok D1 -> theta1 <> [] -> (i < List.length (hd [] D1))%nat -> (2 <= N)%nat ->
  exists s h, spread_at method p (nth i w 0 / wc) s /\ (forall a, area h a (a + 2 * PI) 1) /\ first_coefficient h (direction_at theta0 i (nth i w 0 / wc)) (s / (s + 1))
    /\ (0 < s -> exists sigma, exp (- (sigma ^ 2 / 2)) = s / (s + 1) /\ forall t, h t = wrapped_normal N sigma (t - direction_at theta0 i (nth i w 0 / wc)))
    /\ forall theta, List.length theta = N -> (forall j, (j < N)%nat -> nth j theta 0 = nth 0 theta 0 + 2 * PI * INR j / INR N) ->
       exists D, spreading g ive sA sK sB type theta0 method p theta w wc = Ok D /\ column_of D theta i (fun t => Rmax 0 (h t)).
Proof. exact (spreading_wrapped). Qed.
Print Assumptions c117_wrapped.

Theorem c117_angle : forall x, same_angle x (wrap x).
Proof. exact (wrap_same). Qed.
Print Assumptions c117_angle.

Theorem c117_accepts : forall g ive sA sK sB type theta0 method p theta w wc, (exists D, spreading g ive sA sK sB type theta0 method p theta w wc = Ok D) <->
  ((exists k, kind_of type = Ok k) /\ (match theta0 with Callable _ => True | Array l => List.length l = List.length w \/ List.length l = 1%nat end)
   /\ ((set_method method = Ok FreqIndependent /\ 0 <= s_a p) \/ (set_method method = Ok Mitsuyasu /\ forall x, In x w -> 0 <= mitsuyasu p (x / wc)))).
Proof. exact (spreading_accepts). Qed.
Print Assumptions c117_accepts.

Theorem c117_types : forall type k, kind_of type = Ok k <-> exists a r, type = String a r /\
  In (a, k) [("c"%char, Cos2s); ("b"%char, Box); ("m"%char, Mises); ("v"%char, Mises); ("p"%char, Poisson); ("s"%char, Sech2); ("w"%char, WrapNorm)].
Proof. exact (kind_letters). Qed.
Print Assumptions c117_types.

Theorem c117_unknown_type : forall g ive sA sK sB type theta0 method p theta w wc a r, type = String a r -> (~ exists k, kind_of type = Ok k) -> (exists m, set_method method = Ok m) ->
  spreading g ive sA sK sB type theta0 method p theta w wc = Err KeyError.
Proof. exact (type_error). Qed.
Print Assumptions c117_unknown_type.

Theorem c117_negative : forall g ive sA sK sB type theta0 method p theta w wc k, kind_of type = Ok k -> match theta0 with Callable _ => True | Array l => List.length l = List.length w \/ List.length l = 1%nat end ->
  set_method method = Ok FreqIndependent -> s_a p < 0 -> spreading g ive sA sK sB type theta0 method p theta w wc = Err ValueError.
Proof. exact (negative_error). Qed.
Print Assumptions c117_negative.

(* the integral is not one for wrap_norm on the usual grid, where the first and the last angle are the same direction *)

Theorem c117_wrapped_linspace_refuted : forall g ive sA sK sB p, s_a p = 1 ->
  exists D, spreading g ive sA sK sB "wrap_norm" (Array [0]) PNone p [- PI; 0; PI] [1] 1 = Ok D /\ nth 0 (nth 0 D []) 0 <> nth 0 (nth 2 D []) 0.
Proof. exact (wrapped_linspace). Qed.
Print Assumptions c117_wrapped_linspace_refuted.

Theorem c117_wrapped_first_angle : forall g ive sA sK sB type theta0 method p theta theta' w wc, kind_of type = Ok WrapNorm -> List.length theta = List.length theta' -> nth 0 theta 0 = nth 0 theta' 0 ->
  spreading g ive sA sK sB type theta0 method p theta w wc = spreading g ive sA sK sB type theta0 method p theta' w wc.
Proof. exact (spreading_wrapped_grid). Qed.
Print Assumptions c117_wrapped_first_angle.

(* nor for sech2 where the spread parameter is zero *)

Theorem c117_sech2_refuted : forall g ive sA sK sB type theta0 method p theta w wc D i, kind_of type = Ok Sech2 -> sB 0 = 0 -> set_method method = Ok Mitsuyasu ->
  spreading g ive sA sK sB type theta0 method p theta w wc = Ok D -> theta <> [] -> (i < List.length (hd [] D))%nat -> nth i w 0 / wc <= wn_lo p -> column_of D theta i (fun _ => 0).
Proof. exact (sech2_no_energy). Qed.
Print Assumptions c117_sech2_refuted.

Example c117_case_sech2 : spreading gammaln_real bessel_real (fun r => r) (fun r => r) (fun r => r) "sech2" (Array [0]) (PStr "mitsuyasu") (Law 15 15 5 (- (5 / 2)) 0 1 None) [0] [0] 1 = Ok [[0]].
Proof. exact sech2_case. Qed.

Example c117_case : log_gamma gammaln_real /\ bessel bessel_real /\ kind_of "box" = Ok Box /\ solved bessel_real (fun _ => PI / 2) (fun r => r) (fun r => r) Box (2 / PI)
  /\ solved bessel_real (fun r => r) (fun _ => 0) (fun r => r) Mises (0 / (0 + 1)).
Proof. exact (conj gammaln_real_ok (conj bessel_real_ok (conj eq_refl (conj box_solution mises_solution)))). Qed.

Example c117_case_call : exists D, spreading gammaln_real bessel_real (fun r => r) (fun r => r) (fun r => r) "poisson" (Array [1]) (PInt 1) law1 [0; 1; 2] [1; 2] 1 = Ok D.
Proof. exact poisson_call. Qed.

(* C118: the spread parameter and the directional spectrum *)

Theorem c118_mitsuyasu : forall p wn, (wn <= wn_lo p -> mitsuyasu p wn = 0) /\ (forall u, wn_up p = Some u -> u < wn -> mitsuyasu p wn = 0)
  /\ (wn_lo p < wn <= wn_c p -> (forall u, wn_up p = Some u -> wn <= u) -> mitsuyasu p wn = s_a p * Rpower wn (m_a p))
  /\ (wn_lo p < wn -> wn_c p < wn -> (forall u, wn_up p = Some u -> wn <= u) -> mitsuyasu p wn = s_b p * Rpower wn (m_b p)).
Proof. exact (mitsuyasu_law). Qed.
Print Assumptions c118_mitsuyasu.

Theorem c118_directional : forall g ive sA sK sB type theta0 method p eps theta1 w spec wc D1 i k, log_gamma g -> bessel ive -> kind_of type = Ok k -> k <> WrapNorm ->
  tospecdata2d g ive sA sK sB type theta0 method p eps theta1 w spec wc = Ok D1 -> List.length spec = List.length w -> (i < List.length w)%nat ->
  exists s f, spread_at method p (nth i w 0 / wc) s
    /\ (forall theta D, tospecdata2d g ive sA sK sB type theta0 method p eps theta w spec wc = Ok D -> column_of D theta i f)
    /\ (solved ive sA sK sB k (s / (s + 1)) -> (forall a, area f a (a + 2 * PI) (nth i spec 0))
        /\ (nth i spec 0 <> 0 -> circular_density (fun t => f t / nth i spec 0) (direction_at theta0 i (nth i w 0 / wc)))).
Proof. exact (directional). Qed.
Print Assumptions c118_directional.

Theorem c118_full_circle : forall eps theta, check_theta eps theta = Ok tt <-> theta <> [] /\ Rabs (Rabs (last theta 0 - hd 0 theta) - 2 * PI) <= eps.
Proof. exact (check_theta_ok). Qed.
Print Assumptions c118_full_circle.

Theorem c118_donelan_refuted : forall g ive sA sK sB type theta0 method p theta w wc, In method [PInt 2; PInt 3; PStr "donelan"; PStr "banner"] -> forall D, spreading g ive sA sK sB type theta0 method p theta w wc <> Ok D.
Proof. exact (no_donelan). Qed.
Print Assumptions c118_donelan_refuted.

Theorem c118_method_numbers : forall i m, set_method (PInt i) = Ok m <-> (0 <= i)%Z /\ nth_error [FreqIndependent; Mitsuyasu; Donelan; Banner] (Z.to_nat i) = Some m.
Proof. exact (method_numbers). Qed.
Print Assumptions c118_method_numbers.

Theorem c118_method_names_refuted : (forall m, m <> FreqIndependent -> set_method (PStr (get_method m)) = Ok m) /\ set_method (PStr (get_method FreqIndependent)) = Err ValueError.
Proof. exact (method_names). Qed.
Print Assumptions c118_method_names_refuted.

Example c118_case : exists D, tospecdata2d gammaln_real bessel_real (fun r => r) (fun r => r) (fun r => r) "poisson" (Array [1]) (PInt 1) law1 0 [- PI; 0; PI] [1; 2] [3; 4] 1 = Ok D.
Proof. exact directional_call. Qed.
