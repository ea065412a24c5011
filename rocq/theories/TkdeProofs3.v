From Coq Require Import Reals Lra Lia List Bool Psatz String.
From Coquelicot Require Import Coquelicot.
From Verif Require Import Base PolyModel FilterModel GridSpec GridProofs5 KdeModel KdeSpec KdeProofs2 KdeProofs5 SeaSpec SeaProofs KernelModel KernelSpec KernelProofs KernelProofs2 KernelProofs6 KernelProofs7 KernelCases TkdeModel TkdeSpec Subst TkdeProofs TkdeProofs2.
Import ListNotations.
Local Open Scope R_scope.

(* the constructor of KDE *)
Lemma kde_built g key k s name c d X hs alpha gs : In (key, (k, s, name)) mkernel_dict -> norm_factor g k d (List.length X) = Ok c -> (1 <= d)%nat -> X <> [] -> Forall (fun p => List.length p = d) X -> fits d hs -> (forall i, (i < d)%nat -> 0 < gs (row X i)) -> 0 <= alpha ->
  exists h lam caller f,
    kde_init (fun v => v) gs (kernel k) (norm_factor g k) d X hs alpha = Ok (Kde X (diagonal (map Rinv h)) lam (kernel k) (prodl h * INR (List.length X) * c), caller)
    /\ List.length h = d /\ (forall i, (i < d)%nat -> nth i h 0 = if Rle_dec (asked hs i) 0 then gs (row X i) else asked hs i)
    /\ List.length lam = List.length X /\ Forall (fun l => 0 < l) lam /\ prodl lam = 1 /\ (alpha = 0 -> lam = repeat 1 (List.length X))
    /\ (forall lam0 caller0, kde_init (fun v => v) gs (kernel k) (norm_factor g k) d X hs 0 = Ok (Kde X (diagonal (map Rinv h)) lam0 (kernel k) (prodl h * INR (List.length X) * c), caller0) ->
         eval_points (Kde X (diagonal (map Rinv h)) lam0 (kernel k) (prodl h * INR (List.length X) * c)) X (repeat 1 (List.length X)) 0 = Ok f)
    /\ List.length f = List.length X /\ (forall i j, (i < List.length X)%nat -> (j < List.length X)%nat -> nth i f 0 <= nth j f 0 -> nth j lam 0 <= nth i lam 0).
Proof.
  intros HI HC Hd HX HFX Hf Hg Ha. destruct (built g key k s name c d X hs alpha gs HI HC Hd HX HFX Hf Hg) as (h & c' & f & E & L & P & V & Ef & Pf). exists h, (lambdas alpha f), c', f. assert (Lf : List.length f = List.length X) by (rewrite Ef; apply map_length). assert (f <> []) by (intros ->; destruct X; [congruence|discriminate]).
  split; [exact E|]. split; [exact L|]. split; [exact V|]. split; [now rewrite lambdas_length|]. split; [apply lambdas_pos|]. split; [now apply lambdas_one|]. split; [|split; [|split]].
  - intros ->. unfold lambdas. destruct (Rlt_dec 0 0); [lra|now rewrite Lf].
  - intros lam0 caller0 E0. destruct (built g key k s name c d X hs 0 gs HI HC Hd HX HFX Hf Hg) as (h0 & c0 & f0 & E1 & L0 & P0 & V0 & Ef0 & Pf0). rewrite E1 in E0.
    assert (Q : forall a b a' b', @Ok (kde * option (list R)) (a, b) = Ok (a', b') -> lambda_ a = lambda_ a') by (intros ? ? ? ? Z; injection Z; congruence). apply Q in E0. cbn [lambda_ my_kde] in E0. subst lam0. clear Q. assert (HL : lambdas 0 f0 = repeat 1 (List.length X)). { unfold lambdas. destruct (Rlt_dec 0 0); [lra|]. rewrite Ef0. now rewrite map_length. }
    rewrite HL. rewrite Ef. apply (eval_points_value (my_kde k c X h (repeat 1 (List.length X)))); [apply repeat_length|apply repeat_length|]. intros p Hp. unfold my_kde. cbn [inv_hs]. rewrite diagonal_length, map_length, L. rewrite Forall_forall in HFX. now apply HFX.
  - exact Lf.
  - intros i j Hi Hj. apply lambdas_order; try easy; now rewrite Lf.
Qed.
Lemma kde_density g key k s name c d X hs alpha gs : log_gamma g -> In (key, (k, s, name)) mkernel_dict -> norm_factor g k d (List.length X) = Ok c -> (1 <= d)%nat -> X <> [] -> Forall (fun p => List.length p = d) X -> fits d hs -> (forall i, (i < d)%nat -> 0 < gs (row X i)) ->
  exists kd caller f, kde_init (fun v => v) gs (kernel k) (norm_factor g k) d X hs alpha = Ok (kd, caller) /\
    (forall pts, Forall (fun p => List.length p = d) pts -> eval_points kd pts (repeat 1 (List.length X)) 0 = Ok (map f pts)) /\ space_integral d f 1 /\ (forall x, 0 <= f x).
Proof.
  intros Hlg HI HC Hd HX HFX Hf Hg. destruct (built g key k s name c d X hs alpha gs HI HC Hd HX HFX Hf Hg) as (h & c' & f & E & L & P & V & Ef & Pf). assert (Lf : List.length f = List.length X) by (rewrite Ef; apply map_length). assert (h <> []) by (intros ->; cbn in L; lia).
  destruct (density g key k s name c X h (lambdas alpha f) Hlg HI ltac:(now rewrite L) H HX P ltac:(now rewrite lambdas_length) (lambdas_pos alpha f) ltac:(now rewrite L)) as (F & F1 & F2 & F3). rewrite L in *. eexists; eexists; exists F. split; [exact E|]. split; [exact F1|]. split; assumption.
Qed.
Lemma kde_wrong store gs kern nf d X h alpha : List.length h <> 1%nat -> List.length h <> d -> kde_init store gs kern nf d X (Some h) alpha = Err ValueError.
Proof.
  intros H1 Hd. unfold kde_init, check_hs. rewrite (proj2 (Nat.eqb_neq _ _) Hd). destruct h as [|a [|b h]]; try reflexivity. contradiction.
Qed.
Lemma kde_alias store gs kern nf d X h alpha kd after : (2 <= d)%nat -> List.length h = d -> kde_init store gs kern nf d X (Some h) alpha = Ok (kd, Some after) ->
  inv_hs kd = diagonal (map Rinv after) /\ List.length after = d /\ forall i, (i < d)%nat -> nth i after 0 = if Rle_dec (nth i h 0) 0 then store (gs (row X i)) else nth i h 0.
Proof.
  intros Hd Hl E. unfold kde_init, check_hs in E. rewrite (proj2 (Nat.eqb_eq _ _) Hl) in E. destruct (replace_spec store gs X h) as (L & V). destruct h as [|a [|b h]]; [cbn in Hl; lia|cbn in Hl; lia|]. set (hh := a :: b :: h) in *. cbn [bind fst snd] in E. destruct (nf d (List.length X)) as [c|]; [|discriminate]. cbn [bind] in E.
  unfold set_alpha in E. cbn [dataset inv_hs KdeModel.kernel KdeModel.norm_factor] in E. rewrite diag_diagonal in E. rewrite Hl in *.
  assert (Q : forall (a b : kde) (c d : option (list R)), Ok (a, c) = Ok (b, d) -> a = b /\ c = d) by (intros ? ? ? ? Z; injection Z; auto). assert (Q2 : forall a b : list R, Some a = Some b -> a = b) by congruence.
  destruct (Rlt_dec 0 alpha).
  - destruct (eval_points _ _ _ _) as [f|]; [|discriminate]. cbn [bind] in E. apply Q in E as (<- & E). apply Q2 in E. subst after. split; [reflexivity|]. split; [exact L|exact V].
  - cbn [bind] in E. apply Q in E as (<- & E). apply Q2 in E. subst after. split; [reflexivity|]. split; [exact L|exact V].
Qed.
(* limits *)
Lemma sigma_nonneg l s : sigma_row l = Some s -> 0 <= s.
Proof.
  unfold sigma_row, std1. destruct (Nat.leb (List.length l) 1); [discriminate|]. cbn [option_map]. intros H. injection H as <-. apply Rmin_glb; [apply sqrt_pos|]. unfold iqrange. apply Rmult_le_pos; [apply Rabs_pos|]. lra.
Qed.
Lemma default_limits l : (2 <= List.length l)%nat -> exists a b, default_xmin l = Some a /\ default_xmax l = Some b /\ forall v, In v l -> a <= v <= b.
Proof.
  intros H. unfold default_xmin, default_xmax. destruct (sigma_row l) as [s|] eqn:E.
  - pose proof (sigma_nonneg l s E). cbn [option_map]. eexists; eexists; split; [reflexivity|]. split; [reflexivity|]. intros v Hv. pose proof (range_spec l v Hv). lra.
  - unfold sigma_row, std1 in E. rewrite (proj2 (Nat.leb_gt _ _)) in E by lia. discriminate.
Qed.
Lemma default_nan x : default_xmin [x] = None /\ default_xmax [x] = None.
Proof. split; reflexivity. Qed.
Lemma args_cover a b xmin xmax inc : (2 <= inc)%nat -> a <= b -> (match xmin, xmax with Some u, Some w => u <= w | _, _ => True end) -> let t := get_args a b xmin xmax inc in
  List.length t = inc /\ nth 0 t 0 <= a /\ b <= nth (inc - 1) t 0 /\ (match xmin with Some u => nth 0 t 0 <= u | None => nth 0 t 0 = a end) /\ (match xmax with Some w => w <= nth (inc - 1) t 0 | None => nth (inc - 1) t 0 = b end)
  /\ forall i, (S i < inc)%nat -> nth (S i) t 0 - nth i t 0 = (nth (inc - 1) t 0 - nth 0 t 0) / INR (inc - 1).
Proof.
  intros Hi Hab Hu. unfold get_args. set (lo := match xmin with Some v => Rmin v a | None => a end). set (hi := match xmax with Some v => Rmax v b | None => b end). cbn zeta.
  assert (N : forall i, (i < inc)%nat -> nth i (linspace lo hi inc) 0 = lo + INR i * ((hi - lo) / INR (inc - 1))). { intros i H. unfold linspace. set (F := fun i => lo + INR i * ((hi - lo) / INR (inc - 1))). rewrite (nth_indep _ 0 (F O)) by (rewrite map_length, seq_length; lia). rewrite map_nth, seq_nth by lia. reflexivity. }
  assert (HI : 0 < INR (inc - 1)) by (apply lt_0_INR; lia). rewrite (N O) by lia. rewrite (N (inc - 1)%nat) by lia. replace (lo + INR 0 * ((hi - lo) / INR (inc - 1))) with lo by (cbn; ring). replace (lo + INR (inc - 1) * ((hi - lo) / INR (inc - 1))) with hi by (field; lra).
  split; [unfold linspace; now rewrite map_length, seq_length|]. split; [|split; [|split; [|split]]].
  - unfold lo. destruct xmin; [apply Rmin_r|lra].
  - unfold hi. destruct xmax; [apply Rmax_r|lra].
  - unfold lo. destruct xmin; [apply Rmin_l|reflexivity].
  - unfold hi. destruct xmax; [apply Rmax_l|reflexivity].
  - intros i H. rewrite !N by lia. rewrite S_INR. field. lra.
Qed.
Lemma check_xmin_pos v l a : l <> [] -> v <> 1 -> (forall x, In x l -> 0 < x) -> (forall x, In x l -> a <= x) -> 0 < check_xmin v l a /\ forall x, In x l -> check_xmin v l a <= x.
Proof.
  intros Hn Hv Hp Ha. unfold check_xmin. destruct (Req_EM_T v 1); [contradiction|]. destruct (min_max_spec l Hn) as (I1 & _ & M). pose proof (Hp _ I1). split; [pose proof (Rmax_r a (minR l / 100)); lra|]. intros x Hx. pose proof (M x Hx). pose proof (Ha x Hx). apply Rmax_lub; lra.
Qed.
(* the shape of the points *)
Lemma check_shape_spec d rows pts : (forall p, In p pts -> List.length p = rows) ->
  (rows = d -> check_shape d rows pts = Ok pts) /\ (rows <> d -> rows = 1%nat -> List.length pts = d -> check_shape d rows pts = Ok [map (hd 0) pts]) /\ (rows <> d -> (rows <> 1%nat \/ List.length pts <> d) -> check_shape d rows pts = Err ValueError).
Proof.
  intros _. unfold check_shape. split; [|split].
  - intros ->. now rewrite Nat.eqb_refl.
  - intros H1 H2 H3. rewrite (proj2 (Nat.eqb_neq _ _) H1). subst rows. rewrite (proj2 (Nat.eqb_eq _ _) H3). reflexivity.
  - intros H1 H2. rewrite (proj2 (Nat.eqb_neq _ _) H1). destruct (Nat.eqb rows 1 && Nat.eqb (List.length pts) d)%bool eqn:E; [|reflexivity]. apply andb_prop in E as (E1 & E2). apply Nat.eqb_eq in E1, E2. destruct H2; contradiction.
Qed.
