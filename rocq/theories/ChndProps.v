(* Theorems about Chebyshev series in several variables (C154). *)
From Coq Require Import Reals ZArith List Bool.
From Verif Require Import Base OrthoModel ChebModel ChebSpec ChndModel ChndSpec ChndProofs ChndProofs2 ChndProofs3 ChndCases.
Import ListNotations.
Local Open Scope R_scope.

(* Evaluation. *)

Theorem c154_points : forall xs dims c extra P, xs <> [] -> List.length xs = List.length dims -> Forall (lt 0) dims -> Forall (fun x => List.length x = P) xs -> shape c = dims ++ extra ->
  exists t, chebvalnd c xs = Ok t /\ shape t = extra ++ [P] /\ forall e p, get t (e ++ [p]) = cheb_series dims c e (point xs p).
Proof. exact (valnd_value). Qed.
Print Assumptions c154_points.

Theorem c154_grid : forall xs dims c extra, List.length xs = List.length dims -> Forall (lt 0) dims -> shape c = dims ++ extra ->
  exists t, chebgridnd c xs = Ok t /\ shape t = extra ++ map (@List.length R) xs /\
    forall e ps, List.length ps = List.length xs -> get t (e ++ ps) = cheb_series dims c e (grid_point xs ps).
Proof. exact (grid_value). Qed.
Print Assumptions c154_grid.

Theorem c154_few_axes_refuted : ~ (forall c x y t, List.length (shape c) = 1%nat -> hd O (shape c) <> O -> List.length x = List.length y -> chebvalnd c [x; y] = Ok t ->
  forall p, get t [p] = cheb_series (shape c) c [] [nth p x 0]).
Proof. exact (few_axes). Qed.
Print Assumptions c154_few_axes_refuted.

Theorem c154_vander : forall deg xs P, xs <> [] -> List.length deg = List.length xs -> Forall (fun d => (0 <= d)%Z) deg -> Forall (fun x => List.length x = P) xs ->
  exists V, chebvandernd deg xs = Ok V /\ List.length V = P /\
    (forall p, (p < P)%nat -> List.length (nth p V []) = fold_right Nat.mul 1%nat (map (fun d => Z.to_nat (d + 1)) deg)) /\
    (forall c p, (p < P)%nat -> shape c = map (fun d => Z.to_nat (d + 1)) deg -> dot (nth p V []) (flat c) = cheb_series (shape c) c [] (point xs p)).
Proof. exact (vander_value). Qed.
Print Assumptions c154_vander.

Theorem c154_vander_errors : forall deg xs, ~ Forall (fun d => (0 <= d)%Z) deg \/ List.length deg <> List.length xs -> chebvandernd deg xs = Err ValueError.
Proof. exact (vander_errors). Qed.
Print Assumptions c154_vander_errors.

Example c154_points_case : Forall (lt 0) [2; 2]%nat /\ shape c22 = [2; 2]%nat ++ [] /\ flat c22 = [1; 2; 3; 4] /\
  (exists t, chebvalnd c22 [[2; 0]; [3; 1]] = Ok t /\ shape t = [2]%nat /\ get t [0%nat] = 37 /\ get t [1%nat] = 3) /\
  chebvandernd [1%Z; 1%Z] [[2]; [3]] = Ok [[1 * (1 * 1); 1 * (3 * 1); 2 * (1 * 1); 2 * (3 * 1)]].
Proof. exact (valnd_case). Qed.

(* Least squares. *)

Theorem c154_fit_fails : forall lstsq xs z deg P, xs <> [] -> List.length deg = List.length xs -> Forall (fun d => (0 <= d)%Z) deg ->
  Forall (fun x => fst x = List.length xs /\ List.length (snd x) = P) xs -> (0 < P)%nat -> fst z = List.length xs -> List.length (snd z) = P ->
  P <> fold_right Nat.mul 1%nat (map (fun d => Z.to_nat (d + 1)) deg) -> chebfitnd lstsq xs z deg None = Err ValueError.
Proof. exact (fit_fails). Qed.
Print Assumptions c154_fit_fails.

Theorem c154_fit_square : forall lstsq xs z deg P, xs <> [] -> List.length deg = List.length xs -> Forall (fun d => (0 <= d)%Z) deg ->
  Forall (fun x => fst x = List.length xs /\ List.length (snd x) = P) xs -> (0 < P)%nat -> fst z = List.length xs -> List.length (snd z) = P ->
  P = fold_right Nat.mul 1%nat (map (fun d => Z.to_nat (d + 1)) deg) -> Forall (fun v => v <> 0) (snd z) ->
  forall V, chebvandernd deg (map snd xs) = Ok V -> solves lstsq (divided V (snd z)) ->
  exists c, chebfitnd lstsq xs z deg None = Ok c /\
    forall i, (i < P)%nat -> let s := sqrt (vsum P (fun j => nth i (nth j V []) 0 ^ 2)) in dot (nth i V []) c = if Req_EM_T s 0 then 1 else s.
Proof. exact (fit_square). Qed.
Print Assumptions c154_fit_square.

Theorem c154_fit_refuted : ~ (forall lstsq x z c, solves_one lstsq -> chebfitnd lstsq [(1%nat, [x])] (1%nat, [z]) [0%Z] None = Ok c -> c = [z]).
Proof. exact (fit_refuted). Qed.
Print Assumptions c154_fit_refuted.

Example c154_fit_case : let xs := [(1%nat, [0; 1])] in let z := (1%nat, [5; 7]) in let deg := [1%Z] in
  xs <> [] /\ List.length deg = List.length xs /\ Forall (fun d => (0 <= d)%Z) deg /\ Forall (fun x => fst x = List.length xs /\ List.length (snd x) = 2%nat) xs /\
  2%nat = fold_right Nat.mul 1%nat (map (fun d => Z.to_nat (d + 1)) deg) /\ Forall (fun v => v <> 0) (snd z) /\
  chebvandernd deg (map snd xs) = Ok [[1 * 1; 0 * 1]; [1 * 1; 1 * 1]] /\ solves solve2 (divided [[1 * 1; 0 * 1]; [1 * 1; 1 * 1]] (snd z)).
Proof. exact (fit_case). Qed.

(* Interpolation at Chebyshev points. *)

Theorem c154_one : forall f n1 d, (0 < n1)%nat ->
  exists t r, chebfit_dct f [n1] (Some [d]) = Ok t /\ shape t = [n1] /\ chebroot n1 1 = Ok r /\
    forall i, (i < n1)%nat -> cheb_series [n1] t [] [nth i r 0] = f (image [d] [nth i r 0]).
Proof. exact (dct_one). Qed.
Print Assumptions c154_one.

Theorem c154_two : forall f n1 n2 d1 d2, (0 < n1)%nat -> (0 < n2)%nat ->
  exists t r1 r2, chebfit_dct f [n1; n2] (Some [d1; d2]) = Ok t /\ shape t = [n1; n2] /\ chebroot n1 1 = Ok r1 /\ chebroot n2 1 = Ok r2 /\
    forall i j, (i < n1)%nat -> (j < n2)%nat -> cheb_series [n1; n2] t [] [nth i r1 0; nth j r2 0] = f (image [d1; d2] [nth i r1 0; nth j r2 0]).
Proof. exact (dct_two). Qed.
Print Assumptions c154_two.

Theorem c154_many : forall f n1 n2 rest dom, Forall (lt 0) (n1 :: n2 :: rest) -> List.length dom = List.length (n1 :: n2 :: rest) ->
  exists t rs, chebfit_dct f (n1 :: n2 :: rest) (Some dom) = Ok t /\ shape t = n1 :: rest ++ [n2] /\
    Forall2 (fun n r => chebroot n 1 = Ok r) (n1 :: n2 :: rest) rs /\
    forall idx, Forall2 lt idx (n1 :: n2 :: rest) -> cheb_series (shape t) t [] (rotate (grid_point rs idx)) = f (image dom (grid_point rs idx)).
Proof. exact (dct_many). Qed.
Print Assumptions c154_many.

Theorem c154_default : forall f n, chebfit_dct f n None = chebfit_dct f n (Some (repeat (-1, 1) (List.length n))) /\ forall pt, List.length pt = List.length n -> image (repeat (-1, 1) (List.length n)) pt = pt.
Proof. exact (dct_default). Qed.
Print Assumptions c154_default.

Theorem c154_three_refuted : ~ (forall f n1 n2 n3 t r1 r2 r3, chebfit_dct f [n1; n2; n3] None = Ok t -> chebroot n1 1 = Ok r1 -> chebroot n2 1 = Ok r2 -> chebroot n3 1 = Ok r3 ->
  forall i j k, (i < n1)%nat -> (j < n2)%nat -> (k < n3)%nat -> cheb_series [n1; n2; n3] t [] [nth i r1 0; nth j r2 0; nth k r3 0] = f [nth i r1 0; nth j r2 0; nth k r3 0]).
Proof. exact (three_refuted). Qed.
Print Assumptions c154_three_refuted.

Example c154_many_case : Forall (lt 0) [2; 3; 2]%nat /\ Forall2 lt [1; 0; 1]%nat [2; 3; 2]%nat /\ rotate [1; 2; 3; 4]%nat = [1; 3; 4; 2]%nat /\ image [(0, 2); (1, 5)] [0; 1] = [(0 * (2 - 0) + (2 + 0)) / 2; (1 * (5 - 1) + (5 + 1)) / 2].
Proof. exact (dct_case). Qed.
