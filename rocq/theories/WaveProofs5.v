From Coq Require Import Reals ZArith Lra Lia.
From Coquelicot Require Import Coquelicot.
From Verif Require Import Base WaveModel WaveSpec WaveProofs WaveProofs2 WaveProofs3.
Local Open Scope R_scope.

Lemma pair_ext (a b c d : R) : a = c -> b = d -> (a, b) = (c, d).
Proof. now intros -> ->. Qed.
Lemma carrier_split tf h w k theta t :
  carrier (wave_of tf h w k theta) (px tf) (py tf) t = Cmult (ee tf theta k) (cis (- (w * t))).
Proof.
  unfold carrier, wave_of, ee, cis, cthx, cthy, Cmult. cbn [dirx diry wavenumber omega fst snd].
  set (a := (px tf * (bet tf * cos (theta - thetax tf * PI / 180 + PI / 2)) + py tf * (bet tf * sin (theta - thetay tf * PI / 180))) * k).
  unfold Rminus at 1 2. rewrite cos_plus, sin_plus. apply pair_ext; ring.
Qed.
Lemma hyper_cosh x : hyper 1 x = cosh x.
Proof. unfold hyper. destruct (Rlt_dec 1 0); [lra|reflexivity]. Qed.
Lemma hyper_sinh x : hyper (-1) x = sinh x.
Proof. unfold hyper. destruct (Rlt_dec (-1) 0); [reflexivity|lra]. Qed.
Lemma zk_level tf h k : water tf = Depth h -> zk tf k = Num (k * level tf h).
Proof.
  intros W. unfold zk, level. rewrite W. destruct (Z.eqb (igam tf) 1); [reflexivity|]. destruct (Z.eqb (igam tf) 2); [|reflexivity]. cbn. f_equal.
Qed.
Lemma ratio_finite tf h k sa sb : water tf = Depth h -> hyper sb (k * h) <> 0 -> ratio tf k sa sb = Num (hyper sa (k * level tf h) / hyper sb (k * h)).
Proof.
  intros W H. unfold ratio. rewrite (zk_level tf h k W). unfold hk. rewrite W. cbn [times_depth]. rewrite Rplus_0_r. now apply hyperbolic_ratio_spec.
Qed.
(* the amplitude as a real number *)
Definition amp (v : wave) (s : sensor) (lev : R) : R :=
  let w := omega v in let k := wavenumber v in
  match s with
  | N => 1 | N_t => w | N_tt => w ^ 2 | N_x | N_y => k | N_xx | N_yy | N_xy => k ^ 2
  | P => density v * gravity v * cc v lev
  | U | V => w * cs v lev | W => w * ss v lev | U_t | V_t => w ^ 2 * cs v lev | W_t => w ^ 2 * ss v lev
  | X_p | Y_p => cs v lev | Z_p => ss v lev
  end.
Lemma hw_amp tf s h w k theta : water tf = Depth h -> 0 < h -> 0 < k -> hw tf s w k = Num (amp (wave_of tf h w k theta) s (level tf h)).
Proof.
  intros Wt Hh Hk. assert (Sh : 0 < sinh (k * h)) by (apply sinh_pos; nra). pose proof (cosh_pos (k * h)) as Ch.
  assert (R1 : forall sa, ratio tf k sa 1 = Num (hyper sa (k * level tf h) / cosh (k * h))) by (intros; rewrite (ratio_finite tf h) by (auto; rewrite hyper_cosh; lra); now rewrite hyper_cosh).
  assert (R2 : forall sa, ratio tf k sa (-1) = Num (hyper sa (k * level tf h) / sinh (k * h))) by (intros; rewrite (ratio_finite tf h) by (auto; rewrite hyper_sinh; lra); now rewrite hyper_sinh).
  destruct s; cbn [hw]; rewrite ?R1, ?R2, ?hyper_cosh, ?hyper_sinh; reflexivity.
Qed.
Lemma amp_nonneg tf s h w k theta : 0 < h -> 0 < k -> 0 <= w -> 0 <= rho tf * grav tf -> (below_surface s = true -> 0 <= level tf h) ->
  0 <= amp (wave_of tf h w k theta) s (level tf h).
Proof.
  intros Hh Hk Hw Hr Hl. pose proof (sinh_pos (k * h) ltac:(nra)) as Sh. pose proof (cosh_pos (k * h)) as Ch. pose proof (cosh_pos (k * level tf h)) as Cl.
  assert (C1 : 0 <= cosh (k * level tf h) / cosh (k * h)) by (left; apply Rdiv_lt_0_compat; auto).
  assert (C2 : 0 <= cosh (k * level tf h) / sinh (k * h)) by (left; apply Rdiv_lt_0_compat; auto).
  assert (C3 : below_surface s = true -> 0 <= sinh (k * level tf h) / sinh (k * h)).
  { intros B. specialize (Hl B). apply Rdiv_le_0_compat; auto. destruct Hl as [Hl| <-]; [left; apply sinh_pos; nra|rewrite Rmult_0_r, sinh_zero; lra]. }
  assert (W2 : 0 <= w ^ 2) by nra. assert (K2 : 0 <= k ^ 2) by nra.
  destruct s; unfold amp, cc, cs, ss, wave_of; cbn [omega wavenumber deep density gravity]; try lra; try (apply C3; reflexivity); try (apply Rmult_le_pos; auto; apply C3; reflexivity); auto; apply Rmult_le_pos; auto.
Qed.
Lemma product tf s h w k theta t : 0 < h -> 0 < k ->
  Cmult (Cmult (RtoC (amp (wave_of tf h w k theta) s (level tf h))) (gw tf s theta k)) (cis (- (w * t))) =
  field (wave_of tf h w k theta) s (px tf) (py tf) (level tf h) t.
Proof.
  intros Hh Hk. pose proof (carrier_split tf h w k theta t) as E.
  assert (Dx : dirx (wave_of tf h w k theta) = cthx tf theta) by reflexivity. assert (Dy : diry (wave_of tf h w k theta) = cthy tf theta) by reflexivity.
  assert (Om : omega (wave_of tf h w k theta) = w) by reflexivity. assert (Kn : wavenumber (wave_of tf h w k theta) = k) by reflexivity.
  set (v := wave_of tf h w k theta) in *. set (lev := level tf h). unfold gw. cbv zeta. set (e := ee tf theta k) in *. set (T := cis (- (w * t))) in *.
  destruct s; unfold field, amp, elevation, pressure, velocity_x, velocity_y, velocity_z; cbv zeta; rewrite ?E, ?Dx, ?Dy, ?Om, ?Kn; clear;
    destruct e as [e1 e2], T as [t1 t2]; unfold Cmult, Copp, re, im, RtoC, Ci; cbn [fst snd]; apply pair_ext; ring.
Qed.

Lemma nth_map' {A B} (f : A -> B) l i d d' : (i < List.length l)%nat -> nth i (map f l) d' = f (nth i l d).
Proof. apply nth_map. Qed.
Lemma tran_spec tf s h wk theta : water tf = Depth h -> 0 < h -> 0 <= rho tf * grav tf -> (below_surface s = true -> 0 <= level tf h) ->
  (forall w k, In (w, k) wk -> 0 <= w /\ 0 < k) ->
  exists Hw Gwt, tran tf s wk theta = Ok (Hw, Gwt) /\ List.length Hw = List.length wk /\ List.length Gwt = List.length theta /\
  forall i j, (i < List.length theta)%nat -> (j < List.length wk)%nat ->
    let w := fst (nth j wk (0, 0)) in let k := snd (nth j wk (0, 0)) in
    0 <= nth j Hw 0 /\ forall t,
    Cmult (Cmult (RtoC (nth j Hw 0)) (nth j (nth i Gwt []) (RtoC 0))) (cos (- (w * t)), sin (- (w * t))) =
    re (if Z.eqb (igam tf) 2 then -1 else 1) (field (wave_of tf h w k (nth i theta 0)) s (px tf) (py tf) (level tf h) t).
Proof.
  intros Wt Hh Hr Hl Hwk. unfold tran. cbv zeta.
  set (Hw := map (fun p => finite_or_0 (hw tf s (fst p) (snd p))) wk).
  assert (Hn : forall j, (j < List.length wk)%nat -> forall th, nth j Hw 0 = amp (wave_of tf h (fst (nth j wk (0, 0))) (snd (nth j wk (0, 0))) th) s (level tf h) /\ 0 <= nth j Hw 0).
  { intros j Hj th. unfold Hw. rewrite (nth_map _ wk j (0, 0)) by auto. pose proof (nth_In wk (0, 0) Hj) as I. destruct (nth j wk (0, 0)) as [w k]. cbn [fst snd]. destruct (Hwk w k I) as [W K].
    rewrite (hw_amp tf s h w k th) by auto. cbn [finite_or_0]. split; [reflexivity|]. apply amp_nonneg; auto. }
  assert (NB : existsb (fun v => if Rlt_dec v 0 then true else false) Hw = false).
  { apply not_true_is_false. intros X. apply existsb_exists in X. destruct X as (v & I & B). apply (In_nth _ _ 0) in I. destruct I as (j & Lj & <-).
    assert (j < List.length wk)%nat by (unfold Hw in Lj; rewrite map_length in Lj; auto). destruct (Hn j H 0) as [_ P0]. destruct (Rlt_dec (nth j Hw 0) 0); [lra|discriminate]. }
  rewrite NB. do 2 eexists. split; [reflexivity|]. split; [unfold Hw; now rewrite map_length|]. split; [destruct (Z.eqb (igam tf) 2); now rewrite ?map_length|].
  intros i j Hi Hj. cbv zeta. split; [apply (Hn j Hj 0)|]. intros t. destruct (Hn j Hj (nth i theta 0)) as [E _]. rewrite E.
  pose proof (nth_In wk (0, 0) Hj) as I. destruct (nth j wk (0, 0)) as [w k] eqn:Ej. cbn [fst snd] in *. destruct (Hwk w k I) as [W K].
  set (th := nth i theta 0) in *. fold (cis (- (w * t))).
  assert (G : nth j (nth i (map (fun th => map (fun p => gw tf s th (snd p)) wk) theta) []) (RtoC 0) = gw tf s th k).
  { rewrite (nth_map _ theta i 0) by auto. rewrite (nth_map _ wk j (0, 0)) by auto. rewrite Ej. reflexivity. }
  destruct (Z.eqb (igam tf) 2).
  - rewrite (nth_map (map Copp) _ i []) by (rewrite map_length; auto). rewrite (nth_map Copp _ j (RtoC 0)); [|rewrite (nth_map _ theta i 0) by auto; rewrite map_length; auto].
    rewrite G. rewrite <- (product tf s h w k th t) by auto. destruct (gw tf s th k) as [g1 g2], (cis (- (w * t))) as [c1 c2]. unfold Cmult, Copp, re, RtoC. cbn [fst snd]. apply pair_ext; ring.
  - rewrite G. rewrite <- (product tf s h w k th t) by auto. destruct (Cmult _ _) as [a b]. unfold re. cbn [fst snd]. apply pair_ext; ring.
Qed.

(* infinite depth: nan is replaced by 0 *)
Lemma ratio_deep tf k sa sb : water tf = Deep -> (igam tf = 1 \/ igam tf = 2)%Z -> ratio tf k sa sb = Nan.
Proof.
  intros W G. unfold ratio, zk, hk. rewrite W. assert (Z : (if Z.eqb (igam tf) 1 then times_depth k Deep (pz tf) else if Z.eqb (igam tf) 2 then times_depth k Deep (- pz tf) else Num (k * pz tf)) = xinf k).
  { destruct G as [-> | ->]; reflexivity. }
  rewrite Z. cbn [times_depth]. unfold hyperbolic_ratio, xinf. destruct (Rlt_dec k 0); [|destruct (Rlt_dec 0 k)]; cbn [xabs exp_diff]; cbv zeta;
    match goal with |- xmul (xmul _ Nan) ?v = Nan => cbn [xmul]; destruct v; reflexivity end.
Qed.
Lemma tran_deep tf s wk theta : water tf = Deep -> (igam tf = 1 \/ igam tf = 2)%Z -> below_surface s = true ->
  exists Gwt, tran tf s wk theta = Ok (repeat 0 (List.length wk), Gwt).
Proof.
  intros W G B. assert (Z : forall w k, finite_or_0 (hw tf s w k) = 0).
  { intros w k. destruct s; cbn in B; try discriminate; cbn [hw]; rewrite (ratio_deep tf k _ _ W G); reflexivity. }
  unfold tran. cbv zeta. assert (E : map (fun p => finite_or_0 (hw tf s (fst p) (snd p))) wk = repeat 0 (List.length wk)).
  { induction wk as [|p wk IH]; cbn [map repeat List.length]; [reflexivity|]. now rewrite Z, IH. }
  rewrite E. assert (X : existsb (fun v => if Rlt_dec v 0 then true else false) (repeat 0 (List.length wk)) = false).
  { clear. induction (List.length wk); cbn; [reflexivity|]. destruct (Rlt_dec 0 0); [lra|auto]. }
  rewrite X. eexists. reflexivity.
Qed.
Lemma tran_negative tf wk theta w k : In (w, k) wk -> w < 0 -> tran tf N_t wk theta = Err IndexError.
Proof.
  intros I H. unfold tran. cbv zeta. replace (existsb _ _) with true; [reflexivity|]. symmetry. apply existsb_exists. exists w. split; [|destruct (Rlt_dec w 0); [reflexivity|lra]].
  apply in_map_iff. exists (w, k). split; [reflexivity|exact I].
Qed.

(* ---- the relations between the fields ---- *)
Ltac deriv := split; cbn [fst snd]; (auto_derive; [auto|unfold Rminus; ring]).
Lemma field_t v x y lev t :
  has_derivative (fun t => field v N x y lev t) t (field v N_t x y lev t) /\
  has_derivative (fun t => field v N_t x y lev t) t (field v N_tt x y lev t) /\
  has_derivative (fun t => field v X_p x y lev t) t (field v U x y lev t) /\
  has_derivative (fun t => field v Y_p x y lev t) t (field v V x y lev t) /\
  has_derivative (fun t => field v Z_p x y lev t) t (field v W x y lev t) /\
  has_derivative (fun t => field v U x y lev t) t (field v U_t x y lev t) /\
  has_derivative (fun t => field v V x y lev t) t (field v V_t x y lev t) /\
  has_derivative (fun t => field v W x y lev t) t (field v W_t x y lev t).
Proof.
  unfold field, elevation, velocity_x, velocity_y, velocity_z, carrier, re, im. cbv zeta. cbn [fst snd]. do 7 (split; [deriv|]). deriv.
Qed.
Lemma field_xy v x y lev t :
  has_derivative (fun x => field v N x y lev t) x (field v N_x x y lev t) /\
  has_derivative (fun y => field v N x y lev t) y (field v N_y x y lev t) /\
  has_derivative (fun x => field v N_x x y lev t) x (field v N_xx x y lev t) /\
  has_derivative (fun y => field v N_y x y lev t) y (field v N_yy x y lev t) /\
  has_derivative (fun y => field v N_x x y lev t) y (field v N_xy x y lev t).
Proof.
  unfold field, elevation, carrier, re, im. cbv zeta. cbn [fst snd]. do 4 (split; [deriv|]). deriv.
Qed.
Ltac req := match goal with |- @eq _ ?a ?b => change (@eq R a b) end.
Lemma d_cosh a x : is_derive (fun x => cosh (a * x)) x (a * sinh (a * x)).
Proof. unfold cosh, sinh. auto_derive; [auto|]. lra. Qed.
Lemma d_sinh a x : is_derive (fun x => sinh (a * x)) x (a * cosh (a * x)).
Proof. unfold cosh, sinh. auto_derive; [auto|]. lra. Qed.
Lemma d_scaled c d f x l : is_derive f x l -> is_derive (fun x => c * f x * d) x (c * l * d).
Proof. intros H. apply (is_derive_ext (fun x => scal (c * d) (f x))); [intros; unfold scal; cbn; unfold mult; cbn; ring|]. replace (c * l * d) with (scal (c * d) l) by (unfold scal; cbn; unfold mult; cbn; ring). now apply is_derive_scal. Qed.

(* the water is incompressible and its motion free of vortices *)
Lemma incompressible v x y lev t : dirx v ^ 2 + diry v ^ 2 = 1 ->
  exists a b c, has_derivative (fun x => field v U x y lev t) x a /\ has_derivative (fun y => field v V x y lev t) y b /\
    has_derivative (fun lev => field v W x y lev t) lev c /\ Cplus (Cplus a b) c = (0, 0).
Proof.
  intros D. set (e := carrier v x y t).
  exists (im (wavenumber v * dirx v * (omega v * cs v lev * dirx v)) e), (im (wavenumber v * diry v * (omega v * cs v lev * diry v)) e),
    (im (- (omega v * (wavenumber v * cs v lev))) e).
  split; [|split; [|split]].
  - unfold field, velocity_x, e, carrier, re, im. cbn [fst snd]. split; cbn [fst snd]; (auto_derive; [auto|unfold Rminus; ring]).
  - unfold field, velocity_y, e, carrier, re, im. cbn [fst snd]. split; cbn [fst snd]; (auto_derive; [auto|unfold Rminus; ring]).
  - unfold field, velocity_z, im. fold e. cbn [fst snd]. unfold ss, cs. set (S := sinh (wavenumber v * deep v)).
    split; cbn [fst snd].
    + apply (is_derive_ext (fun l => omega v / S * sinh (wavenumber v * l) * snd e)); [intros; req; unfold Rdiv; ring|].
      replace (- (- (omega v * (wavenumber v * (cosh (wavenumber v * lev) / S))) * snd e)) with (omega v / S * (wavenumber v * cosh (wavenumber v * lev)) * snd e) by (unfold Rdiv; ring).
      apply (d_scaled (omega v / S) (snd e) (fun l => sinh (wavenumber v * l))), d_sinh.
    + apply (is_derive_ext (fun l => - omega v / S * sinh (wavenumber v * l) * fst e)); [intros; req; unfold Rdiv; ring|].
      replace (- (omega v * (wavenumber v * (cosh (wavenumber v * lev) / S))) * fst e) with (- omega v / S * (wavenumber v * cosh (wavenumber v * lev)) * fst e) by (unfold Rdiv; ring).
      apply (d_scaled (- omega v / S) (fst e) (fun l => sinh (wavenumber v * l))), d_sinh.
  - unfold Cplus, im. cbn [fst snd]. apply pair_ext.
    + replace (- (wavenumber v * dirx v * (omega v * cs v lev * dirx v) * snd e) + - (wavenumber v * diry v * (omega v * cs v lev * diry v) * snd e) + - (- (omega v * (wavenumber v * cs v lev)) * snd e))
        with (omega v * wavenumber v * cs v lev * snd e * (1 - (dirx v ^ 2 + diry v ^ 2))) by ring. rewrite D. ring.
    + replace (wavenumber v * dirx v * (omega v * cs v lev * dirx v) * fst e + wavenumber v * diry v * (omega v * cs v lev * diry v) * fst e + - (omega v * (wavenumber v * cs v lev)) * fst e)
        with (omega v * wavenumber v * cs v lev * fst e * ((dirx v ^ 2 + diry v ^ 2) - 1)) by ring. rewrite D. ring.
Qed.
Lemma irrotational v x y lev t :
  exists a b, has_derivative (fun lev => field v U x y lev t) lev a /\ has_derivative (fun x => field v W x y lev t) x a /\
              has_derivative (fun lev => field v V x y lev t) lev b /\ has_derivative (fun y => field v W x y lev t) y b.
Proof.
  set (e := carrier v x y t).
  exists (re (omega v * (wavenumber v * ss v lev) * dirx v) e), (re (omega v * (wavenumber v * ss v lev) * diry v) e).
  assert (Lev : forall d u, is_derive (fun l => omega v * cs v l * d * u) lev (omega v * (wavenumber v * ss v lev) * d * u)).
  { intros d u. unfold cs, ss. set (S := sinh (wavenumber v * deep v)).
    apply (is_derive_ext (fun l => omega v / S * cosh (wavenumber v * l) * (d * u))); [intros; req; unfold Rdiv; ring|].
    replace (omega v * (wavenumber v * (sinh (wavenumber v * lev) / S)) * d * u) with (omega v / S * (wavenumber v * sinh (wavenumber v * lev)) * (d * u)) by (unfold Rdiv; ring).
    apply (d_scaled (omega v / S) (d * u) (fun l => cosh (wavenumber v * l))), d_cosh. }
  split; [|split; [|split]].
  - unfold field, velocity_x, re. fold e. split; cbn [fst snd]; apply Lev.
  - unfold field, velocity_z, e, carrier, re, im. cbn [fst snd]. split; cbn [fst snd]; (auto_derive; [auto|unfold Rminus; ring]).
  - unfold field, velocity_y, re. fold e. split; cbn [fst snd]; apply Lev.
  - unfold field, velocity_z, e, carrier, re, im. cbn [fst snd]. split; cbn [fst snd]; (auto_derive; [auto|unfold Rminus; ring]).
Qed.
(* the pressure gradient accelerates the water: needs the dispersion relation *)
Lemma momentum v x y lev t : 0 < wavenumber v -> 0 < deep v -> dispersion_relation (gravity v) (deep v) (omega v) (wavenumber v) ->
  exists a b c, has_derivative (fun x => field v P x y lev t) x a /\ has_derivative (fun y => field v P x y lev t) y b /\ has_derivative (fun lev => field v P x y lev t) lev c /\
    a = re (- density v) (field v U_t x y lev t) /\ b = re (- density v) (field v V_t x y lev t) /\ c = re (- density v) (field v W_t x y lev t).
Proof.
  intros K H D. set (e := carrier v x y t). set (k := wavenumber v) in *. set (h := deep v) in *.
  pose proof (sinh_pos (k * h) ltac:(nra)) as Sh. pose proof (cosh_pos (k * h)) as Ch.
  assert (W : omega v ^ 2 / sinh (k * h) = gravity v * k / cosh (k * h)). { unfold dispersion_relation in D. rewrite D. unfold tanh. field. lra. }
  exists (im (density v * gravity v * cc v lev * (k * dirx v)) e), (im (density v * gravity v * cc v lev * (k * diry v)) e), (re (density v * gravity v * (k * sinh (k * lev) / cosh (k * h))) e).
  assert (X : forall d, density v * gravity v * cc v lev * (k * d) = density v * (omega v ^ 2 * cs v lev * d)).
  { intros d. unfold cc, cs. fold k h. replace (density v * gravity v * (cosh (k * lev) / cosh (k * h)) * (k * d)) with (density v * (gravity v * k / cosh (k * h)) * cosh (k * lev) * d) by (field; lra). rewrite <- W. field. lra. }
  split; [|split; [|split; [|split; [|split]]]].
  - unfold field, pressure, e, carrier, re, im. fold k. cbn [fst snd]. split; cbn [fst snd]; (auto_derive; [auto|unfold Rminus; ring]).
  - unfold field, pressure, e, carrier, re, im. fold k. cbn [fst snd]. split; cbn [fst snd]; (auto_derive; [auto|unfold Rminus; ring]).
  - unfold field, pressure, re. fold e. unfold cc. fold k h.
    assert (Lev : forall u, is_derive (fun l => density v * gravity v * (cosh (k * l) / cosh (k * h)) * u) lev (density v * gravity v * (k * sinh (k * lev) / cosh (k * h)) * u)).
    { intros u. apply (is_derive_ext (fun l => density v * gravity v / cosh (k * h) * cosh (k * l) * u)); [intros; req; unfold Rdiv; ring|].
      replace (density v * gravity v * (k * sinh (k * lev) / cosh (k * h)) * u) with (density v * gravity v / cosh (k * h) * (k * sinh (k * lev)) * u) by (unfold Rdiv; ring).
      apply (d_scaled (density v * gravity v / cosh (k * h)) u (fun l => cosh (k * l))), d_cosh. }
    split; cbn [fst snd]; apply Lev.
  - unfold field, im, re. fold e. cbn [fst snd]. rewrite X. apply pair_ext; ring.
  - unfold field, im, re. fold e. cbn [fst snd]. rewrite X. apply pair_ext; ring.
  - unfold field, re. fold e. cbn [fst snd]. unfold ss. fold k h.
    replace (density v * gravity v * (k * sinh (k * lev) / cosh (k * h))) with (density v * ((gravity v * k / cosh (k * h)) * sinh (k * lev))) by (field; lra). rewrite <- W. apply pair_ext; field; lra.
Qed.
Lemma boundary_conditions v x y t : 0 < wavenumber v -> 0 < deep v ->
  field v W x y (deep v) t = field v N_t x y (deep v) t /\ field v Z_p x y (deep v) t = field v N x y (deep v) t /\ field v W x y 0 t = (0, 0).
Proof.
  intros K H. pose proof (sinh_pos (wavenumber v * deep v) ltac:(nra)) as Sh. assert (E : ss v (deep v) = 1) by (unfold ss; field; lra).
  assert (Z : ss v 0 = 0) by (unfold ss; rewrite Rmult_0_r, sinh_zero; field; lra).
  unfold field, velocity_z, elevation, im, re. cbv zeta. cbn [fst snd]. rewrite E, Z. repeat split; try (apply pair_ext; ring). destruct (carrier v x y t); cbn. apply pair_ext; ring.
Qed.
Lemma default_angles tf h w k theta : bet tf = 1 \/ bet tf = -1 -> thetax tf = 90 -> thetay tf = 0 ->
  dirx (wave_of tf h w k theta) = bet tf * cos theta /\ diry (wave_of tf h w k theta) = bet tf * sin theta /\ dirx (wave_of tf h w k theta) ^ 2 + diry (wave_of tf h w k theta) ^ 2 = 1.
Proof.
  intros B X Y. unfold wave_of. cbn [dirx diry]. rewrite X, Y. replace (theta - 90 * PI / 180 + PI / 2) with theta by field. replace (theta - 0 * PI / 180) with theta by field.
  repeat split. pose proof (sin2_cos2 theta) as S. unfold Rsqr in S. destruct B as [-> | ->]; nra.
Qed.
Lemma pressure_amplitude z Hm0 h g rho kw : exists p, wave_pressure z Hm0 h g rho kw = Num p /\ p = rho * g * Hm0 / 2 * (cosh (kw * (h + z)) / cosh (kw * h)).
Proof.
  unfold wave_pressure. rewrite hyperbolic_ratio_spec by (rewrite hyper_cosh; pose proof (cosh_pos (kw * h)); lra). rewrite !hyper_cosh. cbn [xmul]. eexists. split; [reflexivity|].
  replace (kw * h + kw * z) with (kw * (h + z)) by ring. reflexivity.
Qed.
