(* What the estimators of kdetools.py are supposed to compute *)
From Coq Require Import Reals.
From Verif Require Import Base GridSpec KdeModel.
Local Open Scope R_scope.

(* x - X, coordinate by coordinate, and the product of a matrix with a vector *)
Fixpoint minus_vec (x X : list R) : list R := match x, X with a :: x', b :: X' => (a - b) :: minus_vec x' X' | _, _ => [] end.
Fixpoint inner (a x : list R) : R := match a, x with u :: a', v :: x' => u * v + inner a' x' | _, _ => 0 end.
Definition apply_matrix (m : list (list R)) (x : list R) : list R := map (fun row => inner row x) m.
(* sum over the coordinates of the r-th power, 1 for r = 0 *)
Definition power_sum (r : nat) (x : list R) : R := match r with O => 1 | _ => sumR (map (fun v => v ^ r) x) end.
(* the kernel estimate with responses y and moment r at the point x: every datum with its own scale lambda *)
Definition estimate (k : kde) (y : list R) (r : nat) (x : list R) : R :=
  sumR (map (fun i => nth i y 0 / nth i (lambda_ k) 0 ^ List.length (inv_hs k) * power_sum r (minus_vec x (nth i (dataset k) []))
                      * kernel k (apply_matrix (inv_hs k) (map (fun v => v / nth i (lambda_ k) 0) (minus_vec x (nth i (dataset k) [])))))
            (seq 0 (List.length (dataset k)))) / norm_factor k.
(* an estimator in one dimension with bandwidth h and local scales lam; c is the integral of the kernel *)
Definition kde_1d (kern : R -> R) (c h : R) (X lam : list R) : kde :=
  Kde (map (fun v => [v]) X) [[/ h]] lam (fun x => kern (hd 0 x)) (h * INR (List.length X) * c).
Definition estimate_1d (kern : R -> R) (c h : R) (X lam y : list R) (r : nat) (x : R) : R :=
  sumR (map (fun p => let '(Xi, (l, yi)) := p in yi * (x - Xi) ^ r * (/ (h * l) * kern ((x - Xi) / (h * l)))) (combine X (combine lam y)))
  / (INR (List.length X) * c).

(* the estimate at node i in which every observation v at b + theta steps is replaced by 1 - theta observations at node b and theta at
   node b + 1, that is, in which F is replaced by its linear interpolant between the nodes *)
Definition interpolant (q : R * R) (F : R -> R) (v : R) : R :=
  let b := Z.to_nat (Int_part ((v - fst q) / snd q)) in
  let theta := (v - node q b) / snd q in (1 - theta) * F (node q b) + theta * F (node q (S b)).
Definition smooth_at (kern : R -> R) (h nf : R) (r : nat) (x v : R) : R := (x - v) ^ r * kern ((x - v) / h) / nf.
(* the normalisation: the theoretical one, unless the kernel sampled at the offsets of the grid has an integral that differs by more than 5% *)
Definition sampled_norm (kern : R -> R) (h dx : R) (n N : nat) : R :=
  sumR (map (fun m => kern ((INR m - INR n) * dx / h)) (seq 0 (2 * n))) * dx * INR N.
Definition used_norm (kern : R -> R) (h nf dx : R) (n N : nat) : R :=
  let s := sampled_norm kern h dx n N in if Rlt_dec (5 / 100 * nf) (Rabs (s - nf)) then s else nf.
Definition positive_part (v : R) : R := Rmax 0 v.
(* weighted sum over the observations *)
Definition weighted (f : R -> R) (data y : list R) : R := sumR (map (fun p => snd p * f (fst p)) (combine data y)).
Definition kept (r : nat) (v : R) : R := match r with O => positive_part v | _ => v end.
(* the sampled kernel has nearly the right integral *)
Definition well_sampled (kern : R -> R) (h nf dx : R) (n N : nat) : Prop := Rabs (sampled_norm kern h dx n N - nf) <= 5 / 100 * nf.
Definition lipschitz (L : R) (f : R -> R) : Prop := forall a b, Rabs (f a - f b) <= L * Rabs (a - b).
(* weights of the data in the estimate at x, and the weighted squared error of the line alpha + beta (X - x) *)
Definition local_weights (kern : R -> R) (h : R) (X lam : list R) (x : R) : list R :=
  map (fun p => / (h * snd p) * kern ((x - fst p) / (h * snd p))) (combine X lam).
Definition weighted_error (w X y : list R) (x alpha beta : R) : R :=
  sumR (map (fun p => let '(wi, (Xi, yi)) := p in wi * (yi - alpha - beta * (Xi - x)) ^ 2) (combine w (combine X y))).
(* at least two different data have positive weight *)
Definition two_data (w X : list R) : Prop := exists i j, (i < List.length X)%nat /\ (j < List.length X)%nat /\ nth i X 0 <> nth j X 0 /\ 0 < nth i w 0 /\ 0 < nth j w 0.
(* share of the observations x that the node i of the grid receives, in all *)
Definition received (q : R * R) (x : list R) (i : nat) : R := sumR (map (fun v => tent ((v - node q i) / snd q)) x).
(* the data whose response is one *)
Fixpoint successes (x y : list R) : list R :=
  match x, y with v :: x', r :: y' => if Req_EM_T r 1 then v :: successes x' y' else successes x' y' | _, _ => [] end.
