(* The constructors of KDE and TKDE and the estimate from transformed data of kdetools/kdetools.py *)
From Coq Require Import Reals ZArith Lra Lia List Bool String.
From Coquelicot Require Import Coquelicot.
From Verif Require Import Base PolyModel FilterModel KdeModel SeaSpec SeaCases KernelModel KernelSpec TkdeModel TkdeSpec TkdeProofs TkdeProofs2 TkdeProofs3 TkdeProofs4 TkdeCases.
Import ListNotations.
Local Open Scope R_scope.

(* C125: the constructor of KDE: a density for every choice of bandwidths, limits and pilot exponent *)

Theorem c125_density : forall g key k s name c d X hs alpha gs, log_gamma g -> In (key, (k, s, name)) mkernel_dict -> norm_factor g k d (List.length X) = Ok c -> (1 <= d)%nat -> X <> [] -> Forall (fun p => List.length p = d) X -> fits d hs -> (forall i, (i < d)%nat -> 0 < gs (row X i)) ->
  exists kd caller f, kde_init (fun v => v) gs (kernel k) (norm_factor g k) d X hs alpha = Ok (kd, caller) /\
    (forall pts, Forall (fun p => List.length p = d) pts -> eval_points kd pts (repeat 1 (List.length X)) 0 = Ok (map f pts)) /\ space_integral d f 1 /\ (forall x, 0 <= f x).
Proof. exact (kde_density). Qed.
Print Assumptions c125_density.

Example c125_density_case : exists kd caller f, kde_init (fun v => v) (fun _ => 3 / 2) (kernel (Rectangular 1)) (norm_factor gammaln_real (Rectangular 1)) 1 [[0]; [1]; [5]] (Some [-1]) (1 / 2) = Ok (kd, caller)
  /\ (forall pts, Forall (fun p => List.length p = 1%nat) pts -> eval_points kd pts [1; 1; 1] 0 = Ok (map f pts)) /\ space_integral 1 f 1 /\ (forall x, 0 <= f x).
Proof. exact density_kde_case. Qed.

Theorem c125_built : forall g key k s name c d X hs alpha gs, In (key, (k, s, name)) mkernel_dict -> norm_factor g k d (List.length X) = Ok c -> (1 <= d)%nat -> X <> [] -> Forall (fun p => List.length p = d) X -> fits d hs -> (forall i, (i < d)%nat -> 0 < gs (row X i)) -> 0 <= alpha ->
  exists h lam caller f,
    kde_init (fun v => v) gs (kernel k) (norm_factor g k) d X hs alpha = Ok (Kde X (diagonal (map Rinv h)) lam (kernel k) (prodl h * INR (List.length X) * c), caller)
    /\ List.length h = d /\ (forall i, (i < d)%nat -> nth i h 0 = if Rle_dec (asked hs i) 0 then gs (row X i) else asked hs i)
    /\ List.length lam = List.length X /\ Forall (fun l => 0 < l) lam /\ prodl lam = 1 /\ (alpha = 0 -> lam = repeat 1 (List.length X))
    /\ (forall lam0 caller0, kde_init (fun v => v) gs (kernel k) (norm_factor g k) d X hs 0 = Ok (Kde X (diagonal (map Rinv h)) lam0 (kernel k) (prodl h * INR (List.length X) * c), caller0) ->
         eval_points (Kde X (diagonal (map Rinv h)) lam0 (kernel k) (prodl h * INR (List.length X) * c)) X (repeat 1 (List.length X)) 0 = Ok f)
    /\ List.length f = List.length X /\ (forall i j, (i < List.length X)%nat -> (j < List.length X)%nat -> nth i f 0 <= nth j f 0 -> nth j lam 0 <= nth i lam 0).
Proof. exact (kde_built). Qed.
Print Assumptions c125_built.

Theorem c125_wrong_hs : forall store gs kern nf d X h alpha, List.length h <> 1%nat -> List.length h <> d -> kde_init store gs kern nf d X (Some h) alpha = Err ValueError.
Proof. exact (kde_wrong). Qed.
Print Assumptions c125_wrong_hs.

Theorem c125_alias_refuted : forall store gs kern nf d X h alpha kd after, (2 <= d)%nat -> List.length h = d -> kde_init store gs kern nf d X (Some h) alpha = Ok (kd, Some after) ->
  inv_hs kd = diagonal (map Rinv after) /\ List.length after = d /\ forall i, (i < d)%nat -> nth i after 0 = if Rle_dec (nth i h 0) 0 then store (gs (row X i)) else nth i h 0.
Proof. exact (kde_alias). Qed.
Print Assumptions c125_alias_refuted.

Example c125_alias_case : exists kd, kde_init (fun v => v) (fun _ => 3 / 2) (kernel (Rectangular 1)) (norm_factor gammaln_real (Rectangular 1)) 2 [[0; 1]; [1; 0]; [2; 5]] (Some [1 / 2; -1]) 0 = Ok (kd, Some [1 / 2; 3 / 2]).
Proof. exact alias_case. Qed.

Example c125_alias_integer_case : exists kd, kde_init (fun v => IZR (Int_part v)) (fun _ => 1 / 2) (kernel (Rectangular 1)) (norm_factor gammaln_real (Rectangular 1)) 2 [[0; 1]; [1; 0]; [2; 5]] (Some [1; 0]) 0 = Ok (kd, Some [1; 0]).
Proof. exact alias_integer_case. Qed.

Theorem c125_limits : forall l, (2 <= List.length l)%nat -> exists a b, default_xmin l = Some a /\ default_xmax l = Some b /\ forall v, In v l -> a <= v <= b.
Proof. exact (default_limits). Qed.
Print Assumptions c125_limits.

Example c125_limits_case : exists a b, default_xmin [3; 1; 2; 0; 4] = Some a /\ default_xmax [3; 1; 2; 0; 4] = Some b /\ a <= 0 /\ 4 <= b.
Proof. exact limits_case. Qed.

Theorem c125_limits_single_refuted : forall x, default_xmin [x] = None /\ default_xmax [x] = None.
Proof. exact (default_nan). Qed.
Print Assumptions c125_limits_single_refuted.

Theorem c125_args : forall a b xmin xmax inc, (2 <= inc)%nat -> a <= b -> (match xmin, xmax with Some u, Some w => u <= w | _, _ => True end) -> let t := get_args a b xmin xmax inc in
  List.length t = inc /\ nth 0 t 0 <= a /\ b <= nth (inc - 1) t 0 /\ (match xmin with Some u => nth 0 t 0 <= u | None => nth 0 t 0 = a end) /\ (match xmax with Some w => w <= nth (inc - 1) t 0 | None => nth (inc - 1) t 0 = b end)
  /\ forall i, (S i < inc)%nat -> nth (S i) t 0 - nth i t 0 = (nth (inc - 1) t 0 - nth 0 t 0) / INR (inc - 1).
Proof. exact (args_cover). Qed.
Print Assumptions c125_args.

Example c125_args_case : get_args 0 10 (Some 2) (Some 20) 3 = [0; 10; 20].
Proof. exact args_case. Qed.

Theorem c125_shape : forall d rows pts, (forall p, In p pts -> List.length p = rows) ->
  (rows = d -> check_shape d rows pts = Ok pts) /\ (rows <> d -> rows = 1%nat -> List.length pts = d -> check_shape d rows pts = Ok [map (hd 0) pts]) /\ (rows <> d -> (rows <> 1%nat \/ List.length pts <> d) -> check_shape d rows pts = Err ValueError).
Proof. exact (check_shape_spec). Qed.
Print Assumptions c125_shape.

(* C126: the estimate from transformed data *)

Theorem c126_density : forall g key k s name c d X L2 l hs alpha gs, log_gamma g -> In (key, (k, s, name)) mkernel_dict -> norm_factor g k d (List.length X) = Ok c -> (1 <= d)%nat -> X <> [] -> exponents L2 d l -> Forall (in_domain l) X -> fits d hs ->
  (forall i, (i < d)%nat -> 0 < gs (row (map (change_point l) X) i)) -> (forall v, In v l -> v = 0 \/ v = 1) ->
  exists kd caller f, tkde_init (fun v => v) (fun v => v) gs (kernel k) (norm_factor g k) (Some L2) d X hs alpha = Ok (kd, caller)
    /\ (forall pts, (2 <= List.length pts)%nat -> Forall (in_domain l) pts -> tkde_eval_points (fun v => v) (Some L2) kd d d pts = Ok (map f pts))
    /\ domain_integrals l f 1 /\ (forall p, in_domain l p -> 0 <= f p).
Proof. exact (tkde_density). Qed.
Print Assumptions c126_density.

Theorem c126_change : forall g key k s name c d X L2 l hs alpha gs, log_gamma g -> In (key, (k, s, name)) mkernel_dict -> norm_factor g k d (List.length X) = Ok c -> (1 <= d)%nat -> X <> [] -> exponents L2 d l -> Forall (in_domain l) X -> fits d hs ->
  (forall i, (i < d)%nat -> 0 < gs (row (map (change_point l) X) i)) ->
  exists kd caller F f, tkde_init (fun v => v) (fun v => v) gs (kernel k) (norm_factor g k) (Some L2) d X hs alpha = Ok (kd, caller)
    /\ kde_init (fun v => v) gs (kernel k) (norm_factor g k) d (map (change_point l) X) hs alpha = Ok (kd, caller)
    /\ (forall pts, Forall (fun p => List.length p = d) pts -> eval_points kd pts (repeat 1 (List.length X)) 0 = Ok (map F pts)) /\ space_integral d F 1
    /\ (forall pts, (2 <= List.length pts)%nat -> Forall (in_domain l) pts -> tkde_eval_points (fun v => v) (Some L2) kd d d pts = Ok (map f pts))
    /\ (forall p, in_domain l p -> exists j, jacobian l p j /\ f p = F (change_point l p) * j)
    /\ (forall m, range_integrals l F m -> domain_integrals l f m).
Proof. exact (tkde_change). Qed.
Print Assumptions c126_change.

Example c126_case : exists kd, tkde_init (fun v => v) (fun v => v) (fun _ => 1) (kernel (Rectangular 1)) (norm_factor gammaln_real (Rectangular 1)) (Some [0]) 1 [[1]] None 0 = Ok (kd, None)
  /\ tkde_eval_points (fun v => v) (Some [0]) kd 1 1 [[1]; [exp 1]; [exp 2]] = Ok [1 / 2; 1 / (2 * exp 1); 0].
Proof. exact one_datum. Qed.

Theorem c126_mass_refuted : forall g n c X v l hs alpha gs, log_gamma g -> norm_factor g (Gaussian 4) 1 n = Ok c -> n = List.length X -> X <> [] -> v <> 0 -> v <> 1 -> Forall (in_domain [v]) X -> fits 1 hs -> 0 < gs (row (map (change_point [v]) X) 0) -> l = [v] ->
  exists kd caller f delta, tkde_init (fun v => v) (fun v => v) gs (kernel (Gaussian 4)) (norm_factor g (Gaussian 4)) (Some [v]) 1 X hs alpha = Ok (kd, caller)
    /\ (forall pts, (2 <= List.length pts)%nat -> Forall (in_domain [v]) pts -> tkde_eval_points (fun v => v) (Some [v]) kd 1 1 pts = Ok (map f pts))
    /\ 0 < delta /\ forall a b, 0 < a -> a <= b -> exists m, area (fun x => f [x]) a b m /\ m <= 1 - delta.
Proof. exact (tkde_mass). Qed.
Print Assumptions c126_mass_refuted.

Example c126_mass_case : exists kd caller f delta, tkde_init (fun v => v) (fun v => v) (fun _ => 1) (kernel (Gaussian 4)) (norm_factor gammaln_real (Gaussian 4)) (Some [1 / 2]) 1 [[4]; [9]] None 0 = Ok (kd, caller)
  /\ (forall pts, (2 <= List.length pts)%nat -> Forall (in_domain [1 / 2]) pts -> tkde_eval_points (fun v => v) (Some [1 / 2]) kd 1 1 pts = Ok (map f pts))
  /\ 0 < delta /\ forall a b, 0 < a -> a <= b -> exists m, area (fun x => f [x]) a b m /\ m <= 1 - delta.
Proof. exact mass_case. Qed.

Theorem c126_single_refuted : forall L2 l k d x, exponents L2 d l -> List.length (inv_hs k) = d -> List.length (lambda_ k) = List.length (dataset k) -> in_domain l x -> tkde_eval_points (fun v => v) (Some L2) k d d [x] = Err ValueError.
Proof. exact (single_value). Qed.
Print Assumptions c126_single_refuted.

Theorem c126_integer_refuted : forall dtype X, (forall v, 1 <= v < 2 -> dtype v = 1) -> (forall p, In p X -> exists x, p = [x] /\ 1 <= x < 4) -> transform dtype (Some [1 / 2]) 1 X = Ok (map (fun _ => [1]) X).
Proof. exact (integer_data). Qed.
Print Assumptions c126_integer_refuted.

Example c126_integer_case : transform (fun v => IZR (Int_part v)) (Some [1 / 2]) 1 [[1]; [2]; [3]] = Ok [[1]; [1]; [1]].
Proof. exact integer_case. Qed.

Theorem c126_roundtrip : forall L2 d l X, exponents L2 d l -> (forall p, In p X -> Forall2 (fun v x => 0 < x \/ v = 1) l p) -> (let* t := transform (fun v => v) (Some L2) d X in inverse_transform (fun v => v) (Some L2) d t) = Ok X.
Proof. exact (round_trip). Qed.
Print Assumptions c126_roundtrip.

Theorem c126_limits : forall v l a, l <> [] -> v <> 1 -> (forall x, In x l -> 0 < x) -> (forall x, In x l -> a <= x) -> 0 < check_xmin v l a /\ forall x, In x l -> check_xmin v l a <= x.
Proof. exact (check_xmin_pos). Qed.
Print Assumptions c126_limits.

Theorem c126_none : forall store gs kern nf d X hs alpha kd pts, tkde_init (fun v => v) store gs kern nf None d X hs alpha = kde_init store gs kern nf d X hs alpha
  /\ tkde_eval_points (fun v => v) None kd d d pts = eval_points kd pts (repeat 1 (List.length (dataset kd))) 0.
Proof. exact (none_tkde). Qed.
Print Assumptions c126_none.

Theorem c126_grid : forall L2 l k args, exponents L2 (List.length args) l -> Forall (fun x => (2 <= List.length x)%nat) args -> args <> [] ->
  List.length (inv_hs k) = List.length args -> List.length (lambda_ k) = List.length (dataset k) ->
  tkde_eval_grid (Some L2) k args = tkde_eval_points (fun v => v) (Some L2) k (List.length args) (List.length args) (meshgrid args).
Proof. exact (grid_values). Qed.
Print Assumptions c126_grid.

Theorem c126_grid_order : forall x y i j, (i < List.length y)%nat -> (j < List.length x)%nat -> nth (i * List.length x + j) (meshgrid [x; y]) [] = [nth j x 0; nth i y 0] /\ List.length (meshgrid [x; y]) = (List.length y * List.length x)%nat.
Proof. exact (grid_pair). Qed.
Print Assumptions c126_grid_order.

Example c126_grid_case : exists kd caller, tkde_init (fun v => v) (fun v => v) (fun _ => 1) (kernel (Multi 1 1)) (norm_factor gammaln_real (Multi 1 1)) (Some [0; 1]) 2 [[1; -3]; [2; 5]] None 0 = Ok (kd, caller)
  /\ tkde_eval_grid (Some [0; 1]) kd [[1; 2; 3]; [-1; 4]] = tkde_eval_points (fun v => v) (Some [0; 1]) kd 2 2 [[1; -1]; [2; -1]; [3; -1]; [1; 4]; [2; 4]; [3; 4]].
Proof. exact two_axes_case. Qed.
