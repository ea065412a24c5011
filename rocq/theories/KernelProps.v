(* The kernel functions, their constants and the bandwidth rules of kdetools/kernels.py *)
From Coq Require Import Reals ZArith Lra Lia List Bool String Permutation.
From Coquelicot Require Import Coquelicot.
From Verif Require Import Base PolyModel TransModel KdeModel SeaSpec SeaCases KernelModel KernelSpec KernelProofs2 KernelProofs3 KernelProofs4 KernelProofs5 KernelProofs6 KernelProofs7 KernelProofs8 KernelCases.
Import ListNotations.
Local Open Scope R_scope.

(* C119: every kernel is a density in every number of dimensions *)

Theorem c119_integral : forall g d n key k s name c, log_gamma g -> (1 <= d)%nat -> In (key, (k, s, name)) mkernel_dict -> norm_factor g k d n = Ok c -> space_integral d (fun x => kernel k x / c) 1.
Proof. exact (kernel_one). Qed.
Print Assumptions c119_integral.

Theorem c119_multi : forall g p r d n c, log_gamma g -> (1 <= p)%nat -> (1 <= d)%nat -> 0 < r -> norm_factor g (Multi p r) d n = Ok c -> space_integral d (fun x => kernel (Multi p r) x / c) 1.
Proof. exact (multi_one). Qed.
Print Assumptions c119_multi.

Theorem c119_product : forall g p r d n c, log_gamma g -> (1 <= p)%nat -> 0 < r -> norm_factor g (Product p r) d n = Ok c -> space_integral d (fun x => kernel (Product p r) x / c) 1.
Proof. exact (product_one). Qed.
Print Assumptions c119_product.

Theorem c119_nonneg : forall k x, 0 <= kernel k x.
Proof. exact (kernel_nonneg). Qed.
Print Assumptions c119_nonneg.

Theorem c119_symmetric : forall k x, kernel k (map Ropp x) = kernel k x.
Proof. exact (kernel_even). Qed.
Print Assumptions c119_symmetric.

Theorem c119_exchangeable : forall k x y, Permutation x y -> kernel k x = kernel k y.
Proof. exact (kernel_perm). Qed.
Print Assumptions c119_exchangeable.

Theorem c119_support : forall key k s name x v, In (key, (k, s, name)) mkernel_dict -> ~ In key ["gaus"; "lapl"; "logi"]%string -> In v x ->
  (v < fst (effective_support k) \/ snd (effective_support k) < v) -> kernel k x = 0.
Proof. exact (kernel_support). Qed.
Print Assumptions c119_support.

Theorem c119_norm_kernel : forall g key k s name d pts, In (key, (k, s, name)) mkernel_dict -> (1 <= d)%nat -> pts <> [] ->
  exists c, 0 < c /\ norm_factor g k d (List.length pts) = Ok c /\ norm_kernel g k d pts = Ok (map (fun v => kernel k v / c) pts).
Proof. exact (norm_values). Qed.
Print Assumptions c119_norm_kernel.

Theorem c119_empty : forall g r d n, d = O \/ n = O -> norm_factor g (Triangular r) d n = Err ValueError /\ norm_factor g (Logistic r) d n = Err ValueError.
Proof. exact (plain_factor_error). Qed.
Print Assumptions c119_empty.

(* the class of the Gaussian kernel with another radius than 4 does not integrate to one *)

Theorem c119_gauss_radius_refuted : forall g r n, 0 < r -> r <> 4 -> exists c l, norm_factor g (Gaussian r) 1 n = Ok c /\ space_integral 1 (fun v => kernel (Gaussian r) v / c) l /\ l <> 1.
Proof. exact (gaus_radius). Qed.
Print Assumptions c119_gauss_radius_refuted.

Example c119_case : log_gamma gammaln_real /\ norm_factor gammaln_real (Multi 1 1) 2 10 = Ok (PI / 2) /\ kernel (Multi 1 1) [3 / 5; 3 / 5] = 28 / 100 /\ kernel (Multi 1 1) [3 / 5; - (11 / 10)] = 0.
Proof. exact (conj gammaln_real_ok (conj disk_factor support_case)). Qed.

(* C120: the tabulated statistics of the kernels and the bandwidths that follow from them *)

Theorem c120_moments : forall g n key k mu2 Rk Rdd name c, log_gamma g -> In (key, (k, (mu2, Rk, Rdd), name)) mkernel_dict -> norm_factor g k 1 n = Ok c ->
  line_integral (fun x => x ^ 2 * (kernel k [x] / c)) mu2 /\ line_integral (fun x => (kernel k [x] / c) ^ 2) Rk.
Proof. exact (table). Qed.
Print Assumptions c120_moments.

Theorem c120_bending : forall g n key k mu2 Rk v name c, log_gamma g -> In (key, (k, (mu2, Rk, Some v), name)) mkernel_dict -> norm_factor g k 1 n = Ok c -> bending (fun x => kernel k [x] / c) v.
Proof. exact (table_bending). Qed.
Print Assumptions c120_bending.

Theorem c120_infinite : forall g n key k mu2 Rk name c, log_gamma g -> In (key, (k, (mu2, Rk, None), name)) mkernel_dict -> norm_factor g k 1 n = Ok c -> ~ In key ["triw"; "p1tr"]%string ->
  exists x, ~ exists l, is_derive (fun x => kernel k [x] / c) x l.
Proof. exact (table_none). Qed.
Print Assumptions c120_infinite.

(* the triweight kernel has a finite bending energy where the table says inf *)

Theorem c120_triweight_refuted : forall g n, log_gamma g -> exists key k mu2 Rk name c, In (key, (k, (mu2, Rk, None), name)) mkernel_dict /\ norm_factor g k 1 n = Ok c /\ bending (fun x => kernel k [x] / c) 35.
Proof. exact (triw_refuted). Qed.
Print Assumptions c120_triweight_refuted.

Theorem c120_normal_optimal : forall mu2 rk rdd n sigma h, 0 < mu2 -> 0 < rk -> 0 < n -> 0 < sigma -> 0 < h -> exists b, bending (normal sigma) b /\
  (let k := sigma * amise_constant (mu2, rk, rdd) n in amise mu2 rk b n k <= amise mu2 rk b n h /\ (amise mu2 rk b n h = amise mu2 rk b n k -> h = k)).
Proof. exact (amise_constant_least). Qed.
Print Assumptions c120_normal_optimal.

Theorem c120_optimal : forall mu2 rk rdd b n h, 0 < mu2 -> 0 < rk -> 0 < b -> 0 < n -> 0 < h ->
  let k := Rpower (ste_constant (mu2, rk, rdd) n / b) (1 / 5) in amise mu2 rk b n k <= amise mu2 rk b n h /\ (amise mu2 rk b n h = amise mu2 rk b n k -> h = k).
Proof. exact (ste_least). Qed.
Print Assumptions c120_optimal.

Example c120_case : In ("triw"%string, (Multi 3 1, (1 / 9, 350 / 429, None), "triweight"%string)) mkernel_dict /\ norm_factor gammaln_real (Multi 3 1) 1 5 = Ok (32 / 35).
Proof. exact table_case. Qed.

(* C121: the kernel density estimate is a density *)

Theorem c121_density : forall g key k s name c X hs lam, log_gamma g -> In (key, (k, s, name)) mkernel_dict -> norm_factor g k (List.length hs) (List.length X) = Ok c ->
  hs <> [] -> X <> [] -> Forall (fun h => 0 < h) hs -> List.length lam = List.length X -> Forall (fun l => 0 < l) lam -> Forall (fun p => List.length p = List.length hs) X ->
  exists f, (forall pts, Forall (fun p => List.length p = List.length hs) pts ->
              eval_points (Kde X (diagonal (map Rinv hs)) lam (kernel k) (prodl hs * INR (List.length X) * c)) pts (repeat 1 (List.length X)) 0 = Ok (map f pts))
            /\ space_integral (List.length hs) f 1 /\ (forall x, 0 <= f x).
Proof. exact (density). Qed.
Print Assumptions c121_density.

Example c121_case : exists f, eval_points (Kde [[0]; [1]] (diagonal [/ (1 / 2)]) [1; 2] (kernel (Rectangular 1)) (prodl [1 / 2] * INR 2 * 2)) [[1 / 4]; [2]] [1; 1] 0 = Ok (map f [[1 / 4]; [2]])
  /\ f [1 / 4] = 3 / 4 /\ f [2] = 1 / 4 /\ space_integral 1 f 1.
Proof. exact density_case. Qed.

(* C122: the normal scale bandwidth *)

Theorem c122_equivariant : forall s a b l, l <> [] -> hns_row s (map (fun v => a * v + b) l) = option_map (fun h => Rabs a * h) (hns_row s l).
Proof. exact (hns_affine). Qed.
Print Assumptions c122_equivariant.

Theorem c122_exchangeable : forall s l m, Permutation l m -> hns_row s l = hns_row s m.
Proof. exact (hns_perm). Qed.
Print Assumptions c122_exchangeable.

Theorem c122_exists : forall s l, (2 <= List.length l)%nat -> exists h, hns_row s l = Some h.
Proof. exact (hns_exists). Qed.
Print Assumptions c122_exists.

Theorem c122_zero : forall s l h, hns_row s l = Some h -> 0 <= h /\ (h = 0 <-> exists c, forall v, In v l -> v = c).
Proof. exact (hns_zero). Qed.
Print Assumptions c122_zero.

Theorem c122_bound : forall s l h sd, hns_row s l = Some h -> std1 l = Some sd -> h <= sd * amise_constant s (INR (List.length l)).
Proof. exact (hns_bound). Qed.
Print Assumptions c122_bound.

Theorem c122_iqrange : forall a b l, l <> [] -> iqrange (map (fun v => a * v + b) l) = Rabs a * iqrange l.
Proof. exact (iqr_affine). Qed.
Print Assumptions c122_iqrange.

Theorem c122_hos : forall s data, hos s data = map (fun row => option_map (fun h => h / (93 / 100)) (hns_row s row)) data.
Proof. exact (hos_value). Qed.
Print Assumptions c122_hos.

Example c122_case : exists h, hns_row stats_gaus [3; 1; 2; 0; 4] = Some h /\ hns_row stats_gaus (map (fun v => -2 * v + 7) [3; 1; 2; 0; 4]) = Some (2 * h) /\ 0 < h.
Proof. exact hns_case. Qed.

(* C123: derivatives of the Gaussian kernel *)

Theorem c123_derivatives : forall t numout i v, nth_error (deriv4_6_8_10 t numout) i = Some v -> exists h, derivative (4 + 2 * i) (normal 1) h /\ v = h t.
Proof. exact (deriv_spec). Qed.
Print Assumptions c123_derivatives.

Theorem c123_number : forall t numout, List.length (deriv4_6_8_10 t numout) = Nat.max 1 numout.
Proof. exact (deriv_length). Qed.
Print Assumptions c123_number.

Theorem c123_psi : forall r sigma, 0 < sigma -> Nat.Even r -> exists h, derivative r (normal (sqrt 2 * sigma)) h /\ psi r sigma = h 0.
Proof. exact (psi_spec). Qed.
Print Assumptions c123_psi.

Example c123_case : nth_error (deriv4_6_8_10 0 2) 1 = Some (-15 * normal 1 0) /\ psi 4 1 = 3 / (8 * sqrt PI).
Proof. exact deriv_case. Qed.

(* C124: the names of the kernels *)

Theorem c124_lookup : forall name e, get_kernel name = Ok e <-> In (substring 0 4 name, e) mkernel_dict.
Proof. exact (get_kernel_spec). Qed.
Print Assumptions c124_lookup.

Theorem c124_unknown : forall name, (forall e, ~ In (substring 0 4 name, e) mkernel_dict) -> get_kernel name = Err KeyError.
Proof. exact (get_kernel_error). Qed.
Print Assumptions c124_unknown.

Theorem c124_documented : Forall (fun p => exists e, get_kernel (fst p) = Ok e /\ fst (fst e) = snd p)
  [ ("epanechnikov", Multi 1 1); ("biweight", Multi 2 1); ("triweight", Multi 3 1); ("p1epanechnikov", Product 1 1); ("p1biweight", Product 2 1); ("p1triweight", Product 3 1);
    ("rectangular", Rectangular 1); ("triangular", Triangular 1); ("laplace", Laplace 7); ("logistic", Logistic 7); ("gaussian", Gaussian 4) ]%string.
Proof. exact (documented_names). Qed.
Print Assumptions c124_documented.

(* the name a kernel reports does not select it again *)

Theorem c124_name_refuted : exists e, get_kernel "gaussian" = Ok e /\ get_kernel (snd e) = Err KeyError.
Proof. exact (name_refuted). Qed.
Print Assumptions c124_name_refuted.

Theorem c124_hmns : forall g short n d, ~ In short ["epan"; "biwe"; "triw"; "gaus"]%string \/ (In short ["biwe"; "triw"]%string /\ (2 < d)%nat) <-> hmns_scale g short n d = Err NotImplementedError.
Proof. exact (hmns_errors). Qed.
Print Assumptions c124_hmns.
