From Coq Require Import Reals Lra Lia List Bool String Ascii.
From Coquelicot Require Import Coquelicot.
From Verif Require Import Base PolyModel OrthoModel DftModel DftProofs SpreadModel SpreadSpec SeaModel SeaSpec SeaProofs SeaProofs4 SeaCases WaveProofs2 SpreadProofs SpreadProofs2 SpreadProofs3 SpreadProofs4.
Import ListNotations.
Local Open Scope R_scope.

Lemma series_area N s m a : (1 <= N)%nat -> 0 <= s -> area (fun t => wn_series N (fourier2d (s / (s + 1))) (t - m)) a (a + 2 * PI) 1.
Proof.
  intros HN Hs. pose proof PI_RGT_0 as HP. assert (G : area (fun t => (fun u => wn_series N (fourier2d (s / (s + 1))) u) (t + - m)) a (a + 2 * PI) 1); [|exact G]. apply (shift_area (fun u => wn_series N (fourier2d (s / (s + 1))) u)).
  replace (a + 2 * PI + - m) with (a + - m + 2 * PI) by ring. destruct (Req_dec s 0) as [E|E].
  - subst s. rewrite fourier2d_zero. cbn [wn_series]. pose proof (const_area (a + - m) (a + - m + 2 * PI) (1 / (2 * PI))) as G. replace ((a + - m + 2 * PI - (a + - m)) * (1 / (2 * PI))) with 1 in G by (field; lra). exact G.
  - destruct (fourier2d_value s ltac:(lra)) as (x & -> & _). exact (wrapped_area N x (a + - m) HN).
Qed.
Lemma series_coefficient N s m : (2 <= N)%nat -> 0 <= s -> first_coefficient (fun t => wn_series N (fourier2d (s / (s + 1))) (t - m)) m (s / (s + 1)).
Proof.
  intros HN Hs a. pose proof PI_RGT_0 as HP. assert (G : area (fun t => (fun u => wn_series N (fourier2d (s / (s + 1))) u * cos u) (t + - m)) a (a + 2 * PI) (s / (s + 1))); [|exact G]. apply (shift_area (fun u => wn_series N (fourier2d (s / (s + 1))) u * cos u)).
  replace (a + 2 * PI + - m) with (a + - m + 2 * PI) by ring. destruct (Req_dec s 0) as [E|E].
  - subst s. rewrite fourier2d_zero. cbn [wn_series]. pose proof (area_mult _ (1 / (2 * PI)) _ _ _ (cos_area 1 (a + - m) ltac:(lia))) as G. replace (0 / (0 + 1)) with (1 / (2 * PI) * 0) by (field; lra). apply (area_eq (fun t => 1 / (2 * PI) * cos (INR 1 * t)) (fun u => 1 / (2 * PI) * cos u) _ _ _) with (2 := G). intros t. cbn [INR]. now rewrite Rmult_1_l.
  - destruct (fourier2d_value s ltac:(lra)) as (x & -> & _ & <-). exact (wrapped_coefficient N x (a + - m) HN).
Qed.
Lemma spreading_wrapped g ive sA sK sB type theta0 method p theta1 w wc D1 i N : kind_of type = Ok WrapNorm ->
  spreading g ive sA sK sB type theta0 method p theta1 w wc = Ok D1 -> theta1 <> [] -> (i < List.length (hd [] D1))%nat -> (2 <= N)%nat ->
  exists s h, spread_at method p (nth i w 0 / wc) s /\ (forall a, area h a (a + 2 * PI) 1) /\ first_coefficient h (direction_at theta0 i (nth i w 0 / wc)) (s / (s + 1))
    /\ (0 < s -> exists sigma, exp (- (sigma ^ 2 / 2)) = s / (s + 1) /\ forall t, h t = wrapped_normal N sigma (t - direction_at theta0 i (nth i w 0 / wc)))
    /\ forall theta, List.length theta = N -> (forall j, (j < N)%nat -> nth j theta 0 = nth 0 theta 0 + 2 * PI * INR j / INR N) ->
       exists D, spreading g ive sA sK sB type theta0 method p theta w wc = Ok D /\ column_of D theta i (fun t => Rmax 0 (h t)).
Proof.
  intros Hk E Hn Hi HN. destruct (column_facts _ _ _ _ _ _ _ _ _ _ _ _ _ _ E Hn Hi) as (s & k' & Hs & Hk' & F). rewrite Hk in Hk'. injection Hk' as <-. set (m := direction_at theta0 i (nth i w 0 / wc)) in *.
  exists s, (fun t => wn_series N (fourier2d (s / (s + 1))) (t - m)). destruct Hs as [Hs Hs']. split; [now split|]. split; [intros a; apply series_area; [lia|easy]|]. split; [exact (series_coefficient N s m HN Hs)|]. split.
  - intros H0. destruct (fourier2d_value s H0) as (x & -> & _ & Ex). exists x. now split.
  - intros theta LT HT. destruct (F theta) as (D & ED & LD & FD). exists D. split; [easy|]. split; [easy|]. intros j Hj. rewrite (FD j Hj). rewrite LT in *. rewrite wrap_norm_value by lia. cbn [par_of]. rewrite wn_series_wrap. rewrite (HT j Hj). f_equal. f_equal. ring.
Qed.
(* whatever the angles, the values are those of the equidistant angles that start at the first one *)
Lemma spreading_wrapped_grid g ive sA sK sB type theta0 method p theta theta' w wc : kind_of type = Ok WrapNorm -> List.length theta = List.length theta' -> nth 0 theta 0 = nth 0 theta' 0 ->
  spreading g ive sA sK sB type theta0 method p theta w wc = spreading g ive sA sK sB type theta0 method p theta' w wc.
Proof.
  intros Hk HL H0. unfold spreading. destruct (set_method method) as [m|]; [|easy]. cbn [bind]. rewrite Hk. cbn [bind]. destruct (_ && _)%bool; [easy|]. destruct (spread_parameter _ _ _ _ _ _ _) as [par|]; [|easy]. cbn [bind]. f_equal.
  set (cols := if (_ || _)%bool then _ else _). assert (H1 : nth 0 (map wrap theta) 0 = nth 0 (map wrap theta') 0). { destruct theta, theta'; try discriminate HL; [easy|]. cbn in *. now rewrite H0. }
  rewrite H1, HL, !map_length. rewrite HL. set (F := fun j : nat => map (fun i => wrap_norm (List.length theta') (entry par i None) (wrap (nth 0 (map wrap theta') 0 - entry (main_direction theta0 (map (fun w => w / wc) w)) i 0)) j) (seq 0 cols)).
  assert (G : forall l : list R, List.length l = List.length theta' -> map (fun jt => F (fst jt)) (combine (seq 0 (List.length theta')) l) = map F (seq 0 (List.length theta'))).
  { intros l El. rewrite <- (map_map fst F). f_equal. assert (C : forall (A B : Type) (u : list A) (v : list B), List.length v = List.length u -> map fst (combine u v) = u). { intros A B u. induction u as [|a u IH]; intros [|b v] Q; try discriminate Q; [easy|]. cbn. now rewrite IH by (now injection Q). } apply C. now rewrite seq_length. }
  transitivity (map F (seq 0 (List.length theta'))); [|symmetry]; apply G; now rewrite map_length.
Qed.
(* a set of directions *)
Lemma spreading_accepts g ive sA sK sB type theta0 method p theta w wc : (exists D, spreading g ive sA sK sB type theta0 method p theta w wc = Ok D) <->
  ((exists k, kind_of type = Ok k) /\ (match theta0 with Callable _ => True | Array l => List.length l = List.length w \/ List.length l = 1%nat end)
   /\ ((set_method method = Ok FreqIndependent /\ 0 <= s_a p) \/ (set_method method = Ok Mitsuyasu /\ forall x, In x w -> 0 <= mitsuyasu p (x / wc)))).
Proof.
  split.
  - intros [D E]. destruct (spreading_any _ _ _ _ _ _ _ _ _ _ _ _ _ E) as (m & k & par & Em & Ek & Ep & El & _). split; [now exists k|]. split.
    + destruct theta0; [easy|]. cbn [main_direction] in El. now rewrite map_length in El.
    + destruct (parameter_inv _ _ _ _ _ _ _ _ Ep) as (s & Es & Fs & _). rewrite Forall_forall in Fs. destruct (values_inv _ _ _ _ Es) as [[-> ->]|[-> ->]]; [left|right]; (split; [easy|]); [apply Fs; now left|].
      intros x Hx. apply Fs. apply in_map_iff. exists (x / wc). split; [easy|]. apply in_map_iff. now exists x.
  - intros ((k & Hk) & Hl & Hm). unfold spreading. set (wn := map (fun w => w / wc) w). set (th0 := main_direction theta0 wn).
    assert (El : (negb (Nat.eqb (List.length th0) (List.length wn)) && negb (Nat.eqb (List.length th0) 1))%bool = false).
    { apply andb_false_iff. rewrite !negb_false_iff, !Nat.eqb_eq. unfold th0, wn. destruct theta0; cbn [main_direction]; rewrite ?map_length; [now left|exact Hl]. }
    enough (P : forall m s, set_method method = Ok m -> spread_values m p wn = Ok s -> Forall (fun x => 0 <= x) s -> exists par, spread_parameter sA sK sB k m p wn = Ok par).
    + assert (Q : exists m par, set_method method = Ok m /\ spread_parameter sA sK sB k m p wn = Ok par).
      { destruct Hm as [[Hm H0]|[Hm H0]].
        - destruct (P FreqIndependent [s_a p] Hm eq_refl) as [par Hp]; [constructor; [exact H0|constructor]|eauto].
        - destruct (P Mitsuyasu (map (mitsuyasu p) wn) Hm eq_refl) as [par Hp]; [|eauto]. apply Forall_forall. intros x Hx. apply in_map_iff in Hx. destruct Hx as (y & <- & Hy). apply in_map_iff in Hy. destruct Hy as (z & <- & Hz). now apply H0. }
      destruct Q as (m & par & -> & Hp). cbn [bind]. rewrite Hk. cbn [bind]. rewrite El, Hp. cbn [bind]. eauto.
    + intros m s _ Es Fs. unfold spread_parameter. rewrite Es. cbn [bind]. rewrite Forall_forall in Fs. destruct (existsb _ s) eqn:Ex.
      { apply existsb_exists in Ex. destruct Ex as (x & Hx & Q). specialize (Fs x Hx). destruct (Rlt_dec x 0); [lra|discriminate]. }
      destruct k; cbn [fourier2distpar]; try (eexists; reflexivity). unfold fourier2x.
      destruct (existsb _ (map _ s)) eqn:Ey; [|cbn [bind]; eauto]. exfalso. apply existsb_exists in Ey. destruct Ey as (y & Hy & Q). apply in_map_iff in Hy. destruct Hy as (x & <- & Hx). specialize (Fs x Hx).
      destruct (Rle_dec 1 _) as [L|L]; [|discriminate]. rewrite Rabs_right in L by (apply Rle_ge, Rmult_le_pos; [easy|left; apply Rinv_0_lt_compat; lra]).
      apply (Rmult_le_compat_r (x + 1)) in L; [|lra]. unfold Rdiv in L. rewrite Rmult_assoc, Rinv_l in L by lra. lra.
Qed.
Lemma kind_letters type k : kind_of type = Ok k <-> exists a r, type = String a r /\
  In (a, k) [("c"%char, Cos2s); ("b"%char, Box); ("m"%char, Mises); ("v"%char, Mises); ("p"%char, Poisson); ("s"%char, Sech2); ("w"%char, WrapNorm)].
Proof.
  split.
  - destruct type as [|a r]; [discriminate|]. cbn [kind_of]. intros H. exists a, r. split; [easy|].
    repeat match type of H with (if Ascii.eqb a ?c then _ else _) = _ => destruct (Ascii.eqb a c) eqn:Q; [apply Ascii.eqb_eq in Q; subst a; injection H as <-; cbn; tauto|clear Q] end. discriminate H.
  - intros (a & r & -> & H). cbn in H. repeat destruct H as [H|H]; try (injection H as <- <-; reflexivity). easy.
Qed.
Lemma type_error g ive sA sK sB type theta0 method p theta w wc a r : type = String a r -> (~ exists k, kind_of type = Ok k) -> (exists m, set_method method = Ok m) ->
  spreading g ive sA sK sB type theta0 method p theta w wc = Err KeyError.
Proof.
  intros -> Hk [m Hm]. unfold spreading. rewrite Hm. cbn [bind]. cbn [kind_of] in *. repeat match goal with |- context [if Ascii.eqb a ?c then _ else _] => destruct (Ascii.eqb a c); [exfalso; apply Hk; eauto|] end. reflexivity.
Qed.
Lemma negative_error g ive sA sK sB type theta0 method p theta w wc k : kind_of type = Ok k -> match theta0 with Callable _ => True | Array l => List.length l = List.length w \/ List.length l = 1%nat end ->
  set_method method = Ok FreqIndependent -> s_a p < 0 -> spreading g ive sA sK sB type theta0 method p theta w wc = Err ValueError.
Proof.
  intros Hk Hl Hm Hs. unfold spreading. rewrite Hm. cbn [bind]. rewrite Hk. cbn [bind]. set (wn := map (fun w => w / wc) w). set (th0 := main_direction theta0 wn).
  destruct (_ && _)%bool; [easy|]. unfold spread_parameter. cbn [spread_values bind existsb]. destruct (Rlt_dec (s_a p) 0); [|lra]. reflexivity.
Qed.
Lemma mitsuyasu_law p wn : (wn <= wn_lo p -> mitsuyasu p wn = 0) /\ (forall u, wn_up p = Some u -> u < wn -> mitsuyasu p wn = 0)
  /\ (wn_lo p < wn <= wn_c p -> (forall u, wn_up p = Some u -> wn <= u) -> mitsuyasu p wn = s_a p * Rpower wn (m_a p))
  /\ (wn_lo p < wn -> wn_c p < wn -> (forall u, wn_up p = Some u -> wn <= u) -> mitsuyasu p wn = s_b p * Rpower wn (m_b p)).
Proof.
  unfold mitsuyasu. repeat split; intros.
  - destruct (Rle_dec wn (wn_lo p)); [|lra]. destruct (wn_up p); [destruct (Rlt_dec _ _)|]; easy.
  - rewrite H. destruct (Rlt_dec u wn); [easy|lra].
  - destruct (Rle_dec wn (wn_lo p)); [lra|]. destruct (Rle_dec wn (wn_c p)); [|lra]. destruct (wn_up p) as [u|]; [|easy]. specialize (H0 u eq_refl). destruct (Rlt_dec u wn); [lra|easy].
  - destruct (Rle_dec wn (wn_lo p)); [lra|]. destruct (Rle_dec wn (wn_c p)); [lra|]. destruct (wn_up p) as [u|]; [|easy]. specialize (H1 u eq_refl). destruct (Rlt_dec u wn); [lra|easy].
Qed.
Lemma sech2_no_energy g ive sA sK sB type theta0 method p theta w wc D i : kind_of type = Ok Sech2 -> sB 0 = 0 -> set_method method = Ok Mitsuyasu ->
  spreading g ive sA sK sB type theta0 method p theta w wc = Ok D -> theta <> [] -> (i < List.length (hd [] D))%nat -> nth i w 0 / wc <= wn_lo p -> column_of D theta i (fun _ => 0).
Proof.
  intros Hk HB Hm E Hn Hi Hw. destruct (column_facts _ _ _ _ _ _ _ _ _ _ _ _ _ _ E Hn Hi) as (s & k' & Hs & Hk' & F). rewrite Hk in Hk'. injection Hk' as <-. destruct (F theta) as (D' & ED & LD & FD). rewrite E in ED. injection ED as <-.
  split; [easy|]. intros j Hj. rewrite (FD j Hj). destruct Hs as (_ & [[Q _]|[_ Es]]); [congruence|]. rewrite (proj1 (mitsuyasu_law p _) Hw) in Es. subst s. cbn [par_of]. replace (0 / (0 + 1)) with 0 by field. rewrite HB. apply sech2_zero.
Qed.
Lemma no_donelan g ive sA sK sB type theta0 method p theta w wc : In method [PInt 2; PInt 3; PStr "donelan"; PStr "banner"] -> forall D, spreading g ive sA sK sB type theta0 method p theta w wc <> Ok D.
Proof.
  intros Hm D E. assert (X : exists D, spreading g ive sA sK sB type theta0 method p theta w wc = Ok D) by eauto. apply spreading_accepts in X. destruct X as (_ & _ & [[Q _]|[Q _]]); cbn in Hm; repeat destruct Hm as [<-|Hm]; try discriminate Q; easy.
Qed.
Lemma method_names : (forall m, m <> FreqIndependent -> set_method (PStr (get_method m)) = Ok m) /\ set_method (PStr (get_method FreqIndependent)) = Err ValueError.
Proof. split; [|reflexivity]. intros m H. destruct m; try reflexivity. easy. Qed.
Lemma check_theta_ok eps theta : check_theta eps theta = Ok tt <-> theta <> [] /\ Rabs (Rabs (last theta 0 - hd 0 theta) - 2 * PI) <= eps.
Proof.
  destruct theta as [|t r]; cbn [check_theta hd]; [split; [discriminate|easy]|]. destruct (Rlt_dec _ _) as [H|H]; split; intros Q; try discriminate Q; try easy; [destruct Q; lra|]. split; [easy|lra].
Qed.
Lemma directional g ive sA sK sB type theta0 method p eps theta1 w spec wc D1 i k : log_gamma g -> bessel ive -> kind_of type = Ok k -> k <> WrapNorm ->
  tospecdata2d g ive sA sK sB type theta0 method p eps theta1 w spec wc = Ok D1 -> List.length spec = List.length w -> (i < List.length w)%nat ->
  exists s f, spread_at method p (nth i w 0 / wc) s
    /\ (forall theta D, tospecdata2d g ive sA sK sB type theta0 method p eps theta w spec wc = Ok D -> column_of D theta i f)
    /\ (solved ive sA sK sB k (s / (s + 1)) -> (forall a, area f a (a + 2 * PI) (nth i spec 0)) /\ (nth i spec 0 <> 0 -> circular_density (fun t => f t / nth i spec 0) (direction_at theta0 i (nth i w 0 / wc)))).
Proof.
  intros Hg HB Hk Hw E HS Hi. unfold tospecdata2d in E. destruct (check_theta eps theta1) as [[]|] eqn:Ec; [|discriminate E]. cbn [bind] in E. apply check_theta_ok in Ec. destruct Ec as [Hn _].
  destruct (spreading g ive sA sK sB type theta0 method p theta1 w wc) as [D0|] eqn:E0; [|discriminate E]. clear E.
  destruct (spreading_any _ _ _ _ _ _ _ _ _ _ _ _ _ E0) as (m & k' & par & Em & Ek & Ep & El & EL & EA). rewrite Hk in Ek. injection Ek as <-. set (wn := map (fun w => w / wc) w) in *. set (th0 := main_direction theta0 wn) in *.
  assert (Hwn : List.length wn = List.length w) by (apply map_length).
  assert (HC : (columns th0 wn par = List.length w) \/ (columns th0 wn par = 1%nat /\ List.length th0 <> List.length w /\ List.length par = 1%nat)).
  { unfold columns. rewrite Hwn. destruct (Nat.eqb (List.length th0) (List.length w)) eqn:Q1; [now left|]. apply Nat.eqb_neq in Q1. destruct (Nat.eqb (List.length par) 1) eqn:Q2; [|now left]. apply Nat.eqb_eq in Q2. right. now split. }
  set (i' := if Nat.eqb (columns th0 wn par) 1 then 0%nat else i).
  assert (Hi' : (i' < columns th0 wn par)%nat). { unfold i'. destruct (Nat.eqb _ 1) eqn:Q; [apply Nat.eqb_eq in Q; lia|]. apply Nat.eqb_neq in Q. destruct HC as [HC|HC]; lia. }
  rewrite <- (EL Hn) in Hi'. destruct (column_facts _ _ _ _ _ _ _ _ _ _ _ _ _ _ E0 Hn Hi') as (s & k' & Hs & Hk' & F). rewrite Hk in Hk'. injection Hk' as <-.
  assert (HI : spread_at method p (nth i w 0 / wc) s /\ direction_at theta0 i' (nth i' w 0 / wc) = direction_at theta0 i (nth i w 0 / wc)).
  { unfold i' in *. destruct (Nat.eqb _ 1) eqn:Q; [|easy]. destruct HC as [HC|(HC & H1 & H2)].
    - apply Nat.eqb_eq in Q. replace i with 0%nat by lia. easy.
    - destruct theta0 as [f|l]; [exfalso; apply H1; unfold th0; cbn; now rewrite map_length|]. split.
      + destruct Hs as [Hs [Hs1|[Hs1 _]]]; [split; [easy|now left]|]. exfalso. destruct (parameter_inv _ _ _ _ _ _ _ _ Ep) as (sv & Es & _ & Epar). rewrite Hs1 in Em. injection Em as <-. cbn in Es. injection Es as <-. rewrite Epar, !map_length in H2. rewrite H2 in *. destruct El as [El|El]; lia.
      + destruct l as [|t [|t' l]]; cbn; try reflexivity; [|]. all: exfalso; cbn in El, H1; lia. }
  destruct HI as [HI1 HI2]. rewrite HI2 in F. set (mm := direction_at theta0 i (nth i w 0 / wc)) in *.
  exists s, (fun t => density g ive k (par_of sA sK sB k s) (wrap (t - mm)) * nth i spec 0). split; [easy|]. split.
  - intros theta D ED. unfold tospecdata2d in ED. destruct (check_theta eps theta) as [[]|]; [|discriminate ED]. cbn [bind] in ED. destruct (F theta) as (DD & EDD & LD & FD). rewrite EDD in ED. cbn [bind] in ED. injection ED as <-. split; [now rewrite map_length|]. intros j Hj.
    rewrite (nth_map_any _ DD j [] []) by lia. rewrite (nth_map_any _ _ i 0%nat 0) by (now rewrite seq_length, HS). rewrite seq_nth by lia. rewrite !Nat.add_0_l. f_equal.
    destruct (EA theta) as (DD' & EDD' & _ & RL & _). rewrite EDD in EDD'. injection EDD' as <-. assert (RJ : List.length (nth j DD []) = columns th0 wn par) by (apply RL, nth_In; lia).
    replace (entry (nth j DD []) i 0) with (nth i' (nth j DD []) 0). { rewrite (FD j Hj). destruct k; easy. }
    unfold i'. rewrite <- RJ. destruct (nth j DD []) as [|x [|y r]]; cbn [List.length Nat.eqb entry]; reflexivity.
  - intros HV. destruct Hs as [Hs _]. pose proof (lift_density _ mm (density_circular g ive sA sK sB k s Hg HB Hw Hs HV)) as CD. split.
    + intros a. destruct CD as [CA _]. pose proof (area_mult _ (nth i spec 0) _ _ _ (CA a)) as G. rewrite Rmult_1_r in G. apply (area_eq _ _ _ _ _) with (2 := G). intros t. ring.
    + intros Z. assert (EQ : forall t, density g ive k (par_of sA sK sB k s) (wrap (t - mm)) * nth i spec 0 / nth i spec 0 = density g ive k (par_of sA sK sB k s) (wrap (t - mm))) by (intros t; field; easy).
      destruct CD as (C1 & C2 & C3 & C4). split; [intros a; apply (area_eq _ _ _ _ _) with (2 := C1 a); intros t; symmetry; apply EQ|]. split; [intros t; rewrite !EQ; apply C2|]. split; intros t; rewrite !EQ; [apply C3|apply C4].
Qed.

(* cases *)
Definition bessel_real (n : nat) (x : R) : R := RInt (fun t => exp (x * (cos t - 1)) * cos (INR n * t)) (- PI) PI / (2 * PI).
Lemma bessel_real_ok : bessel bessel_real.
Proof.
  intros n x. pose proof PI_RGT_0 as HP. unfold bessel_real. assert (Q : forall y : R, 2 * PI * (y / (2 * PI)) = y) by (intros y; field; lra). rewrite Q.
  apply (@RInt_correct R_CompleteNormedModule). apply (@ex_RInt_continuous R_CompleteNormedModule). intros t _. apply mises_cont.
Qed.
Lemma wrapped_linspace g ive sA sK sB p : s_a p = 1 -> exists D, spreading g ive sA sK sB "wrap_norm" (Array [0]) PNone p [- PI; 0; PI] [1] 1 = Ok D /\ nth 0 (nth 0 D []) 0 <> nth 0 (nth 2 D []) 0.
Proof.
  intros Hs. pose proof PI_RGT_0 as HP. assert (X : exists D, spreading g ive sA sK sB "wrap_norm" (Array [0]) PNone p [- PI; 0; PI] [1] 1 = Ok D).
  { apply spreading_accepts. split; [now exists WrapNorm|]. split; [now left|]. left. split; [easy|lra]. }
  destruct X as [D0 E0]. exists D0. split; [easy|].
  assert (H0 : (0 < List.length (hd [] D0))%nat). { destruct (spreading_any _ _ _ _ _ _ _ _ _ _ _ _ _ E0) as (m & k & par & _ & _ & _ & _ & EL & _). rewrite EL by easy. unfold columns. cbn. lia. }
  destruct (column_facts _ _ _ _ _ _ _ _ _ _ _ _ _ _ E0 ltac:(easy) H0) as (s & k & (Hs0 & Hs1) & Hk & F). injection Hk as <-. destruct (F [- PI; 0; PI]) as (D & ED & _ & FD). rewrite E0 in ED. injection ED as <-.
  assert (s = 1) by (destruct Hs1 as [[_ Q]|[Q _]]; [lra|discriminate Q]). subst s. rewrite (FD 0%nat), (FD 2%nat) by (cbn; lia). cbn [List.length nth direction_at]. rewrite !wrap_norm_value by lia. rewrite !wn_series_wrap. cbn [par_of]. destruct (fourier2d_value 1 ltac:(lra)) as (x & -> & _ & Ex). cbn [wn_series].
  assert (E4 : exp (- (INR 2 ^ 2 * x ^ 2 / 2)) = (1 / 2) ^ 4). { replace (- (INR 2 ^ 2 * x ^ 2 / 2)) with (- (x ^ 2 / 2) + - (x ^ 2 / 2) + (- (x ^ 2 / 2) + - (x ^ 2 / 2))) by (cbn [INR]; field). rewrite !exp_plus, Ex. field. }
  assert (E1 : exp (- (INR 1 ^ 2 * x ^ 2 / 2)) = 1 / 2). { replace (INR 1 ^ 2 * x ^ 2 / 2) with (x ^ 2 / 2) by (cbn [INR]; field). rewrite Ex. field. }
  rewrite !wrapped_normal_S by lia. cbn [wrapped_normal]. rewrite !E1, !E4.
  replace (INR 1 * (- PI - 0 + 2 * PI * INR 0 / INR 3)) with (- PI) by (cbn [INR]; field). replace (INR 2 * (- PI - 0 + 2 * PI * INR 0 / INR 3)) with (- (2 * PI)) by (cbn [INR]; field).
  replace (INR 1 * (- PI - 0 + 2 * PI * INR 2 / INR 3)) with (PI / 3) by (cbn [INR]; field). replace (INR 2 * (- PI - 0 + 2 * PI * INR 2 / INR 3)) with (2 * (PI / 3)) by (cbn [INR]; field).
  rewrite !cos_neg, cos_PI, cos_2PI, cos_2PI3, cos_PI3.
  replace (1 / (2 * PI) + 1 / 2 * -1 / PI + (1 / 2) ^ 4 * 1 / PI) with (1 / 16 / PI) by (field; lra). replace (1 / (2 * PI) + 1 / 2 * (1 / 2) / PI + (1 / 2) ^ 4 * (-1 / 2) / PI) with (23 / 32 / PI) by (field; lra).
  assert (HI : 0 < / PI) by (now apply Rinv_0_lt_compat). unfold Rdiv. rewrite !Rmax_right by (apply Rmult_le_pos; lra). intros Q. apply Rmult_eq_reg_r in Q; [lra|lra].
Qed.
Lemma sech2_case : spreading gammaln_real bessel_real (fun r => r) (fun r => r) (fun r => r) "sech2" (Array [0]) (PStr "mitsuyasu") (Law 15 15 5 (- (5 / 2)) 0 1 None) [0] [0] 1 = Ok [[0]].
Proof.
  assert (X : exists D, spreading gammaln_real bessel_real (fun r => r) (fun r => r) (fun r => r) "sech2" (Array [0]) (PStr "mitsuyasu") (Law 15 15 5 (- (5 / 2)) 0 1 None) [0] [0] 1 = Ok D).
  { apply spreading_accepts. split; [now exists Sech2|]. split; [now left|]. right. split; [easy|]. intros x [<-|[]]. rewrite (proj1 (mitsuyasu_law _ _)); cbn; lra. }
  destruct X as [D E]. rewrite E. f_equal. destruct (spreading_any _ _ _ _ _ _ _ _ _ _ _ _ _ E) as (m & k & par & _ & _ & _ & _ & EL & EA). destruct (EA [0]) as (D' & E' & L' & RL & _). rewrite E in E'. injection E' as <-.
  assert (HC : List.length (hd [] D) = 1%nat) by (rewrite EL by easy; reflexivity).
  assert (HN : [0] <> ([] : list R)) by easy. assert (H0 : (0 < List.length (hd [] D))%nat) by (rewrite HC; lia). assert (HW : nth 0 [0] 0 / 1 <= wn_lo (Law 15 15 5 (- (5 / 2)) 0 1 None)) by (cbn; lra).
  destruct (sech2_no_energy gammaln_real bessel_real (fun r => r) (fun r => r) (fun r => r) "sech2" (Array [0]) (PStr "mitsuyasu") (Law 15 15 5 (- (5 / 2)) 0 1 None) [0] [0] 1 D 0%nat eq_refl eq_refl eq_refl E HN H0 HW) as [_ G].
  specialize (G 0%nat ltac:(cbn; lia)).
  destruct D as [|r [|]]; try discriminate L'. cbn in HC, G. destruct r as [|y [|]]; try discriminate HC. cbn in G. now rewrite G.
Qed.
Definition law1 : spread_law := Law (1 / 3) (1 / 3) 5 (- (5 / 2)) 0 1 None.
Lemma box_solution : solved bessel_real (fun _ => PI / 2) (fun r => r) (fun r => r) Box (2 / PI).
Proof. pose proof PI_RGT_0 as HP. cbn. split; [lra|]. rewrite sin_PI2. field. lra. Qed.
Lemma mises_solution : solved bessel_real (fun r => r) (fun _ => 0) (fun r => r) Mises (0 / (0 + 1)).
Proof.
  pose proof PI_RGT_0 as HP. cbn [solved]. split; [lra|]. replace (0 / (0 + 1)) with 0 by field. rewrite Rmult_0_l. unfold bessel_real. rewrite (area_unique _ _ _ 0); [unfold Rdiv; ring|].
  pose proof (cos_area 1 (- PI) ltac:(lia)) as G. replace (- PI + 2 * PI) with PI in G by ring. apply (area_eq _ _ _ _ _) with (2 := G). intros t. rewrite Rmult_0_l, exp_0. ring.
Qed.
Lemma law1_pos x : 0 <= mitsuyasu law1 x.
Proof. unfold mitsuyasu. cbn [law1 s_a s_b m_a m_b wn_lo wn_c wn_up]. destruct (Rle_dec x 0); [lra|]. destruct (Rle_dec x 1); apply Rmult_le_pos; try lra; left; apply exp_pos. Qed.
Lemma poisson_call : exists D, spreading gammaln_real bessel_real (fun r => r) (fun r => r) (fun r => r) "poisson" (Array [1]) (PInt 1) law1 [0; 1; 2] [1; 2] 1 = Ok D.
Proof. apply spreading_accepts. split; [now exists Poisson|]. split; [now right|]. right. split; [easy|]. intros x _. apply law1_pos. Qed.
Lemma directional_call : exists D, tospecdata2d gammaln_real bessel_real (fun r => r) (fun r => r) (fun r => r) "poisson" (Array [1]) (PInt 1) law1 0 [- PI; 0; PI] [1; 2] [3; 4] 1 = Ok D.
Proof.
  pose proof PI_RGT_0 as HP. unfold tospecdata2d. assert (H : check_theta 0 [- PI; 0; PI] = Ok tt). { apply check_theta_ok. split; [easy|]. cbn [last hd]. rewrite (Rabs_right (PI - - PI)) by lra. rewrite Rabs_right by lra. lra. }
  rewrite H. cbn [bind]. assert (X : exists D, spreading gammaln_real bessel_real (fun r => r) (fun r => r) (fun r => r) "poisson" (Array [1]) (PInt 1) law1 [- PI; 0; PI] [1; 2] 1 = Ok D).
  { apply spreading_accepts. split; [now exists Poisson|]. split; [now right|]. right. split; [easy|]. intros x _. apply law1_pos. }
  destruct X as [D ->]. cbn [bind]. eauto.
Qed.
