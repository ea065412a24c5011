From Coq Require Import Reals ZArith Lra Lia List Bool Psatz String.
From Coquelicot Require Import Coquelicot.
From Verif Require Import Base PolyModel FilterModel GridSpec KdeModel KdeSpec KdeProofs2 SeaSpec SeaCases KernelModel KernelSpec KernelProofs7 KernelProofs8 KernelCases TkdeModel TkdeSpec TkdeProofs TkdeProofs2 TkdeProofs3 TkdeProofs4.
Import ListNotations.
Local Open Scope R_scope.

Lemma dom_pos v x : 0 < x -> domain v x.
Proof. now right. Qed.
Lemma dom_one x : domain 1 x.
Proof. now left. Qed.
Ltac dom := unfold in_domain; repeat first [apply Forall_cons | apply Forall_nil | apply Forall2_cons | apply Forall2_nil]; first [apply dom_one | apply dom_pos; lra].
Lemma rect_factor n : (1 <= n)%nat -> norm_factor gammaln_real (Rectangular 1) 1 n = Ok 2.
Proof. intros H. cbn [norm_factor]. assert (Q : forall a b : R, a = b -> Ok a = Ok b) by (intros; now f_equal). apply Q. ring. Qed.
Lemma none_tkde store gs kern nf d X hs alpha kd pts : tkde_init (fun v => v) store gs kern nf None d X hs alpha = kde_init store gs kern nf d X hs alpha
  /\ tkde_eval_points (fun v => v) None kd d d pts = eval_points kd pts (repeat 1 (List.length (dataset kd))) 0.
Proof. split; [reflexivity|]. unfold tkde_eval_points, check_shape. rewrite Nat.eqb_refl. cbn [bind transform]. destruct (eval_points _ _ _ _); reflexivity. Qed.
Lemma alias_case : exists kd, kde_init (fun v => v) (fun _ => 3 / 2) (kernel (Rectangular 1)) (norm_factor gammaln_real (Rectangular 1)) 2 [[0; 1]; [1; 0]; [2; 5]] (Some [1 / 2; -1]) 0 = Ok (kd, Some [1 / 2; 3 / 2]).
Proof.
  unfold kde_init, check_hs, replace_negatives. cbn [List.length Nat.eqb seq map]. unfold at_R. cbn [nth]. destruct (Rle_dec (1 / 2) 0) as [A|_]; [exfalso; lra|]. destruct (Rle_dec (-1) 0) as [_|A]; [|exfalso; lra]. cbn [bind fst snd norm_factor]. unfold set_alpha. destruct (Rlt_dec 0 0) as [A|_]; [exfalso; lra|]. eexists. reflexivity.
Qed.
Lemma alias_integer_case : exists kd, kde_init (fun v => IZR (Int_part v)) (fun _ => 1 / 2) (kernel (Rectangular 1)) (norm_factor gammaln_real (Rectangular 1)) 2 [[0; 1]; [1; 0]; [2; 5]] (Some [1; 0]) 0 = Ok (kd, Some [1; 0]).
Proof.
  unfold kde_init, check_hs, replace_negatives. cbn [List.length Nat.eqb seq map]. unfold at_R. cbn [nth]. destruct (Rle_dec 1 0) as [A|_]; [exfalso; lra|]. destruct (Rle_dec 0 0) as [_|A]; [|exfalso; lra]. cbn [bind fst snd norm_factor]. unfold set_alpha. destruct (Rlt_dec 0 0) as [A|_]; [exfalso; lra|].
  assert (E : Int_part (1 / 2) = 0%Z). { unfold Int_part. apply (f_equal (fun z => (z - 1)%Z)) with (y := 1%Z). symmetry. apply tech_up; cbn; lra. } rewrite E. eexists. reflexivity.
Qed.
Lemma density_kde_case : exists kd caller f, kde_init (fun v => v) (fun _ => 3 / 2) (kernel (Rectangular 1)) (norm_factor gammaln_real (Rectangular 1)) 1 [[0]; [1]; [5]] (Some [-1]) (1 / 2) = Ok (kd, caller)
  /\ (forall pts, Forall (fun p => List.length p = 1%nat) pts -> eval_points kd pts [1; 1; 1] 0 = Ok (map f pts)) /\ space_integral 1 f 1 /\ (forall x, 0 <= f x).
Proof.
  apply (kde_density gammaln_real "rect" (Rectangular 1) stats_rect "Rectangular" 2 1 [[0]; [1]; [5]] (Some [-1]) (1 / 2) (fun _ => 3 / 2)); [exact gammaln_real_ok|cbn; tauto|apply rect_factor; cbn; lia|lia|discriminate|repeat constructor|now left|intros; lra].
Qed.
Lemma args_case : get_args 0 10 (Some 2) (Some 20) 3 = [0; 10; 20].
Proof. unfold get_args, linspace. rewrite Rmin_right, Rmax_left by lra. cbn [seq map Nat.sub]. replace (INR 2) with 2 by (cbn; ring). cbn [INR]. repeat f_equal; field. Qed.
Lemma limits_case : exists a b, default_xmin [3; 1; 2; 0; 4] = Some a /\ default_xmax [3; 1; 2; 0; 4] = Some b /\ a <= 0 /\ 4 <= b.
Proof. destruct (default_limits [3; 1; 2; 0; 4]) as (a & b & A & B & H); [cbn; lia|]. exists a, b. split; [exact A|]. split; [exact B|]. split; [apply (H 0)|apply (H 4)]; cbn; tauto. Qed.

Lemma one_datum : exists kd, tkde_init (fun v => v) (fun v => v) (fun _ => 1) (kernel (Rectangular 1)) (norm_factor gammaln_real (Rectangular 1)) (Some [0]) 1 [[1]] None 0 = Ok (kd, None)
  /\ tkde_eval_points (fun v => v) (Some [0]) kd 1 1 [[1]; [exp 1]; [exp 2]] = Ok [1 / 2; 1 / (2 * exp 1); 0].
Proof.
  assert (P : 0 < exp 1) by apply exp_pos. assert (P2 : 0 < exp 2) by apply exp_pos.
  assert (EX : exponents [0] 1 [0]) by (right; easy).
  assert (D : Forall (in_domain [0]) [[1]]) by (dom).
  destruct (tkde_main gammaln_real "rect" (Rectangular 1) stats_rect "Rectangular" 2 1 [[1]] [0] [0] None 0 (fun _ => 1)) as (kd & caller & F & f & I & IK & E & SI & NN & TE & J & _ & _ & Ef & EF);
    [exact gammaln_real_ok|cbn; tauto|apply rect_factor; cbn; lia|lia|discriminate|exact EX|exact D|exact Logic.I|intros; lra|].
  exists kd.
  assert (K : kd = Kde [[0]] [[1]] [1] (kernel (Rectangular 1)) 2 /\ caller = None).
  { clear - IK. unfold kde_init, check_hs, replace_negatives in IK. cbn [List.length Nat.eqb seq map repeat] in IK. unfold at_R in IK. cbn [nth] in IK. destruct (Rle_dec 1 0) as [A|_]; [exfalso; lra|]. cbn [bind fst snd norm_factor] in IK. unfold set_alpha in IK. destruct (Rlt_dec 0 0) as [A|_]; [exfalso; lra|].
    assert (Q : forall a b : kde * option (list R), Ok a = Ok b -> a = b) by (intros a b Hab; now inversion Hab). cbn [bind] in IK. apply Q in IK. assert (K1 := f_equal fst IK). assert (K2 := f_equal snd IK). cbn [fst snd] in K1, K2. split; [|now symmetry]. rewrite <- K1. cbn [dataset inv_hs KdeModel.kernel KdeModel.norm_factor map change_point repeat List.length diag seq]. unfold diag, at_R, prodl. cbn. unfold change. destruct (Req_EM_T 0 0) as [_|A]; [|congruence]. rewrite ln_1. f_equal; [do 2 f_equal; field|field]. }
  destruct K as (-> & ->). split; [exact I|].
  rewrite TE; [|cbn; lia|dom]. rewrite Ef, EF. cbn [map].
  assert (C : forall x, 0 < x -> change_point [0] [x] = [ln x]). { intros x Hx. cbn [change_point]. unfold change. destruct (Req_EM_T 0 0) as [_|A]; [reflexivity|congruence]. }
  assert (S : forall x, 0 < x -> prodl (zip_with scale1 [x] [0]) = / x). { intros x Hx. unfold zip_with, scale1, prodl. cbn. destruct (Req_EM_T 0 0) as [_|A]; [|congruence]. destruct (Req_EM_T 0 1) as [A|_]; [exfalso; lra|]. unfold power. destruct (Req_EM_T (0 - 1) 1) as [A|_]; [exfalso; lra|]. replace (0 - 1) with (- (1)) by ring. rewrite Rpower_Ropp, Rpower_1 by lra. ring. }
  rewrite !C, !S by lra. rewrite ln_1, !ln_exp. unfold estimate. cbn.
  assert (Q : forall a b c a' b' c' : R, a = a' -> b = b' -> c = c' -> Ok [a; b; c] = Ok [a'; b'; c']) by (intros; subst; reflexivity).
  apply Q.
  - destruct (Rle_dec _ _) as [_|A]; [|exfalso; apply A; apply Rabs_le; lra]. unfold sumR. cbn. field.
  - destruct (Rle_dec _ _) as [_|A]; [|exfalso; apply A; apply Rabs_le; lra]. unfold sumR. cbn. field. lra.
  - destruct (Rle_dec _ _) as [A|_]; [exfalso; apply Rabs_le_between in A; lra|]. unfold sumR. cbn. field. lra.
Qed.
Lemma mass_case : exists kd caller f delta, tkde_init (fun v => v) (fun v => v) (fun _ => 1) (kernel (Gaussian 4)) (norm_factor gammaln_real (Gaussian 4)) (Some [1 / 2]) 1 [[4]; [9]] None 0 = Ok (kd, caller)
  /\ (forall pts, (2 <= List.length pts)%nat -> Forall (in_domain [1 / 2]) pts -> tkde_eval_points (fun v => v) (Some [1 / 2]) kd 1 1 pts = Ok (map f pts))
  /\ 0 < delta /\ forall a b, 0 < a -> a <= b -> exists m, area (fun x => f [x]) a b m /\ m <= 1 - delta.
Proof.
  assert (EX : exists c, norm_factor gammaln_real (Gaussian 4) 1 2 = Ok c) by (eexists; reflexivity). destruct EX as [c HC].
  apply (tkde_mass gammaln_real 2 c [[4]; [9]] (1 / 2) [1 / 2] None 0 (fun _ => 1)); try reflexivity; try lra; [exact gammaln_real_ok|exact HC|discriminate|dom].
Qed.
Lemma integer_case : transform (fun v => IZR (Int_part v)) (Some [1 / 2]) 1 [[1]; [2]; [3]] = Ok [[1]; [1]; [1]].
Proof.
  apply (integer_data (fun v => IZR (Int_part v)) [[1]; [2]; [3]]).
  - intros v Hv. assert (E : Int_part v = 1%Z). { unfold Int_part. apply (f_equal (fun z => (z - 1)%Z)) with (y := 2%Z). symmetry. apply tech_up; cbn; lra. } now rewrite E.
  - intros p [<- |[<- |[<- |[]]]]; eexists; (split; [reflexivity|lra]).
Qed.
Lemma two_axes_case : exists kd caller, tkde_init (fun v => v) (fun v => v) (fun _ => 1) (kernel (Multi 1 1)) (norm_factor gammaln_real (Multi 1 1)) (Some [0; 1]) 2 [[1; -3]; [2; 5]] None 0 = Ok (kd, caller)
  /\ tkde_eval_grid (Some [0; 1]) kd [[1; 2; 3]; [-1; 4]] = tkde_eval_points (fun v => v) (Some [0; 1]) kd 2 2 [[1; -1]; [2; -1]; [3; -1]; [1; 4]; [2; 4]; [3; 4]].
Proof.
  assert (EX : exists c, norm_factor gammaln_real (Multi 1 1) 2 2 = Ok c) by (eexists; reflexivity). destruct EX as [c HC].
  assert (HL : exponents [0; 1] 2 [0; 1]) by (right; easy).
  destruct (tkde_main gammaln_real "epan" (Multi 1 1) stats_epan "epanechnikov" c 2 [[1; -3]; [2; 5]] [0; 1] [0; 1] None 0 (fun _ => 1)) as (kd & caller & F & f & I & IK & _);
    [exact gammaln_real_ok|cbn; tauto|exact HC|lia|discriminate|exact HL|dom|exact Logic.I|intros; lra|].
  exists kd, caller. split; [exact I|]. apply (grid_values [0; 1] [0; 1] kd [[1; 2; 3]; [-1; 4]]); [exact HL|repeat constructor|discriminate| |].
  all: destruct (kde_built gammaln_real "epan" (Multi 1 1) stats_epan "epanechnikov" c 2 (map (change_point [0; 1]) [[1; -3]; [2; 5]]) None 0 (fun _ => 1)) as (h & lam & ca & fv & IB & LH & _ & LL & _);
    [cbn; tauto|exact HC|lia|discriminate|repeat constructor|exact Logic.I|intros; lra|lra|].
  all: rewrite IK in IB; assert (Q : forall a b : kde * option (list R), Ok a = Ok b -> a = b) by (intros a b Hab; now inversion Hab); apply Q in IB; apply (f_equal fst) in IB; cbn [fst] in IB; rewrite IB; cbn [inv_hs lambda_ dataset].
  - rewrite diagonal_length, map_length. exact LH.
  - exact LL.
Qed.
