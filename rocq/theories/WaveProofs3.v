From Coq Require Import Reals ZArith Lra Lia.
From Coquelicot Require Import Coquelicot.
From Verif Require Import Base WaveModel WaveSpec WaveProofs WaveProofs2.
Local Open Scope R_scope.

Definition good (g rtol atol : R) (p : point) : Prop :=
  match ph p with
  | Deep => active p = false /\ pk p = sgn (pw p) * (pw p ^ 2 / g) /\ phn p = 0
  | Depth h => 0 < h /\
      if Rle_dec (10 ^ 25) h then active p = false /\ pk p = sgn (pw p) * (pw p ^ 2 / g) /\ phn p = 0
      else (pw p = 0 -> active p = false /\ pk p = 0 /\ phn p = 0) /\
        (pw p <> 0 -> 0 < pw p * pk p /\
          (active p = false -> exists kold, kold <> 0 /\ pk p = kold - phn p /\ phn p * slope (kold * h) = kold * tanh (kold * h) - pw p ^ 2 / g /\
              Rabs (phn p) <= tolerance rtol atol (pk p)))
  end.
Lemma start_good g rtol atol w h : 0 < g -> positive_depth h -> good g rtol atol (start g w h).
Proof.
  intros Hg Hh. unfold good, start. cbn [ph pw pk phn active]. destruct h as [|h]; cbn [below_limit].
  - destruct (Req_EM_T w 0); (split; [reflexivity|split; [unfold deep_k; field; lra|reflexivity]]).
  - split; [exact Hh|]. destruct (Rle_dec (10 ^ 25) h) as [L|L].
    + destruct (Req_EM_T w 0); [|destruct (Rlt_dec h (10 ^ 25)); [lra|]]; (split; [reflexivity|split; [unfold deep_k; field; lra|reflexivity]]).
    + destruct (Req_EM_T w 0) as [->|N].
      * split; [intros _; split; [reflexivity|split; [unfold deep_k; field; lra|reflexivity]]|easy].
      * split; [easy|]. intros _. destruct (Rlt_dec h (10 ^ 25)); [|lra]. split; [|discriminate].
        unfold deep_k. replace (w * (1 * sgn w * w ^ 2 / g)) with (w * sgn w * (w ^ 2 / g)) by (field; lra).
        apply Rmult_lt_0_compat; [destruct (Rtotal_order w 0) as [A|[A|A]]; [rewrite sgn_neg by auto; lra|lra|rewrite sgn_pos by auto; lra]|].
        apply Rdiv_lt_0_compat; [nra|auto].
Qed.
Lemma inactive_zero rtol atol x : 0 <= rtol -> 0 <= atol -> (if Rlt_dec (rtol * Rabs x) (Rabs 0) then if Rlt_dec atol (Rabs 0) then true else false else false) = false.
Proof. intros Hr Ha. rewrite Rabs_R0. destruct (Rlt_dec (rtol * Rabs x) 0); [|reflexivity]. destruct (Rlt_dec atol 0); [lra|reflexivity]. Qed.
Lemma step_good g rtol atol p : 0 < g -> 0 <= rtol -> 0 <= atol -> good g rtol atol p -> good g rtol atol (reactivate rtol atol (newton g p)).
Proof.
  intros Hg Hr Ha G. unfold good in *. destruct p as [w h k hn act]. cbn [ph pw pk phn active] in *.
  assert (Still : act = false -> phn (newton g (Point w h k hn act)) = hn /\ pk (newton g (Point w h k hn act)) = k) by (intros ->; split; reflexivity).
  assert (Same : ph (reactivate rtol atol (newton g (Point w h k hn act))) = h /\ pw (reactivate rtol atol (newton g (Point w h k hn act))) = w).
  { unfold newton; cbn [active pk ph pw]. destruct act; [|split; reflexivity]. cbv zeta. destruct (Req_EM_T (Rabs _) 0); split; reflexivity. }
  destruct Same as [-> ->].
  assert (In0 : act = false -> hn = 0 -> pk (reactivate rtol atol (newton g (Point w h k hn act))) = k /\ phn (reactivate rtol atol (newton g (Point w h k hn act))) = 0 /\
     active (reactivate rtol atol (newton g (Point w h k hn act))) = false).
  { intros -> ->. cbn. repeat split; auto. now apply inactive_zero. }
  destruct h as [|h].
  - destruct G as (A & E & Z). destruct (In0 A Z) as (-> & -> & ->). auto.
  - destruct G as [Hh G]. split; auto. destruct (Rle_dec (10 ^ 25) h) as [L|L].
    + destruct G as (A & E & Z). destruct (In0 A Z) as (-> & -> & ->). auto.
    + destruct G as [G0 G1]. split.
      * intros W. destruct (G0 W) as (A & E & Z). destruct (In0 A Z) as (-> & -> & ->). auto.
      * intros W. destruct (G1 W) as (Sg & Cv).
        assert (Fin : forall b x y, (if Rlt_dec (rtol * Rabs x) (Rabs y) then if Rlt_dec atol (Rabs y) then true else false else false) = b -> b = false -> Rabs y <= tolerance rtol atol x).
        { intros b x y E ->. unfold tolerance. destruct (Rlt_dec (rtol * Rabs x) (Rabs y)); [destruct (Rlt_dec atol (Rabs y)); [discriminate|]; eapply Rle_trans; [|apply Rmax_r]; lra|].
          eapply Rle_trans; [|apply Rmax_l]; lra. }
        destruct act.
        -- assert (K0 : k <> 0) by (intros ->; lra). assert (C : 0 < w ^ 2 / g) by (apply Rdiv_lt_0_compat; [nra|auto]).
           pose proof (newton_sign (w ^ 2 / g) h k C Hh K0) as NS. unfold newton. cbn [active pk ph pw depth_value]. cbv zeta.
           set (d := (k * tanh (k * h) - w ^ 2 / g) / slope (k * h)) in *.
           destruct (Req_EM_T (Rabs (k - d)) 0) as [Z|Z].
           { exfalso. assert (k - d = 0) by (destruct (Req_dec (k - d) 0); auto; apply Rabs_no_R0 in H; contradiction). rewrite H in NS. lra. }
           cbn [reactivate pk phn active pw ph]. split.
           ++ assert (0 < (w * k) * (k * (k - d))) by (apply Rmult_lt_0_compat; auto). assert (0 < k * k) by nra. apply (Rmult_lt_reg_l (k * k)); auto. nra.
           ++ intros A. exists k. repeat split; auto.
              ** assert (K1 : k * h <> 0) by (apply Rmult_integral_contrapositive_currified; lra). pose proof (slope_sign (k * h) K1) as H. assert (K2 : slope (k * h) <> 0) by (intros E; rewrite E in H; lra). unfold d. field. split; [lra|exact K2].
              ** eapply Fin; [exact A|reflexivity].
        -- cbn [newton active reactivate pk phn]. split; [exact Sg|]. intros A. destruct (Cv eq_refl) as (ko & K1 & K2 & K3 & K4). exists ko. repeat split; auto.
Qed.
Lemma step_pw g rtol atol p : pw (reactivate rtol atol (newton g p)) = pw p /\ ph (reactivate rtol atol (newton g p)) = ph p.
Proof. unfold newton. destruct (active p); [|split; reflexivity]. cbv zeta. destruct (Req_EM_T _ 0); split; reflexivity. Qed.
Lemma loop_good g rtol atol limit : 0 < g -> 0 <= rtol -> 0 <= atol -> forall pts r ok, (forall p, In p pts -> good g rtol atol p) ->
  w2k_loop g rtol atol limit pts = (r, ok) ->
  (forall p, In p r -> good g rtol atol p) /\ map (fun p => (pw p, ph p)) r = map (fun p => (pw p, ph p)) pts /\ (ok = true -> forall p, In p r -> active p = false).
Proof.
  intros Hg Hr Ha. induction limit as [|l IH]; intros pts r ok G E; cbn in E.
  - injection E as <- <-. split; auto. split; auto. discriminate.
  - destruct (existsb active pts) eqn:X.
    + apply IH in E; [|intros p Hp; apply in_map_iff in Hp; destruct Hp as (q & <- & Hq); apply step_good; auto]. destruct E as (E1 & E2 & E3). split; auto. split; auto.
      rewrite E2, map_map. apply map_ext. intros p. destruct (step_pw g rtol atol p) as [-> ->]. reflexivity.
    + injection E as <- <-. split; auto. split; auto. intros _ p Hp. destruct (active p) eqn:A; auto. exfalso. assert (existsb active pts = true) by (apply existsb_exists; eauto). congruence.
Qed.
Lemma good_solves g rtol atol p : 0 < g -> 0 <= rtol -> 0 <= atol -> good g rtol atol p -> active p = false -> solves g rtol atol (pw p) (ph p) (pk p).
Proof.
  intros Hg Hr Ha G A. unfold good, solves in *. destruct (ph p) as [|h]; [tauto|]. destruct G as [Hh G]. destruct (Rle_dec (10 ^ 25) h); [tauto|].
  destruct G as [G0 G1]. split; [intros W; apply G0, W|]. split; [intros W; apply G1, W|].
  assert (T0 : 0 <= tolerance rtol atol (pk p)) by (unfold tolerance; eapply Rle_trans; [|apply Rmax_r]; auto).
  destruct (Req_dec (pw p) 0) as [W|W].
  - destruct (G0 W) as (_ & E & _). rewrite E, W. replace (0 * tanh (0 * h) - 0 ^ 2 / g) with 0 by (field; lra). rewrite Rabs_R0. rewrite E in T0. lra.
  - destruct (G1 W) as (_ & G2). destruct (G2 A) as (ko & K1 & K2 & K3 & K4).
    fold (disp h (pk p)). replace (disp h (pk p) - pw p ^ 2 / g) with ((disp h (pk p) - disp h ko) + phn p * slope (ko * h)) by (rewrite K3; unfold disp; ring).
    eapply Rle_trans; [apply Rabs_triang|]. rewrite Rabs_mult. pose proof (disp_lipschitz h ko (pk p)) as L. pose proof (slope_bound (ko * h)).
    rewrite K2 in L at 2. replace (ko - phn p - ko) with (- phn p) in L by ring. rewrite Rabs_Ropp in L. pose proof (Rabs_pos (phn p)). nra.
Qed.

Lemma nth_map {A B} (f : A -> B) l i d d' : (i < List.length l)%nat -> nth i (map f l) d' = f (nth i l d).
Proof. intros H. rewrite (nth_indep _ d' (f d)) by (rewrite map_length; lia). apply map_nth. Qed.

Definition nopt : R * R * depth := (0, 0, Deep).
(* w2k raises only for a two-dimensional constant in finite depth *)
Lemma w2k_spec pts g limit rtol atol : 0 < g -> 0 <= rtol -> 0 <= atol -> pts <> [] -> (forall w th h, In (w, th, h) pts -> positive_depth h) ->
  exists k1 k2 ok, w2k pts [g] limit rtol atol = Ok (Pair k1 k2, ok) /\ List.length k1 = List.length pts /\ List.length k2 = List.length pts /\
  forall i, (i < List.length pts)%nat -> let w := fst (fst (nth i pts nopt)) in let th := snd (fst (nth i pts nopt)) in let h := snd (nth i pts nopt) in
  exists k, nth i k1 0 = k * cos th /\ nth i k2 0 = k * sin th /\ (w <> 0 -> 0 < w * k) /\ (w = 0 -> k = 0) /\ (ok = true -> solves g rtol atol w h k).
Proof.
  intros Hg Hr Ha Hne Hh. unfold w2k. destruct pts as [|p0 pts']; [easy|]. set (pts := p0 :: pts') in *. cbn [hd last]. cbv zeta.
  replace (g / g) with 1 by (field; lra).
  assert (SG : forall w, w <> 0 -> 0 < w * (sgn w * (w ^ 2 / g))).
  { intros w Hw. assert (0 < w ^ 2 / g) by (apply Rdiv_lt_0_compat; [nra|auto]). rewrite <- Rmult_assoc. apply Rmult_lt_0_compat; auto.
    destruct (Rtotal_order w 0) as [A|[A|A]]; [rewrite sgn_neg by auto; lra|lra|rewrite sgn_pos by auto; lra]. }
  assert (Fin : forall ks ok, List.length ks = List.length pts ->
     (forall i, (i < List.length pts)%nat -> let w := fst (fst (nth i pts nopt)) in let k := nth i ks 0 in (w <> 0 -> 0 < w * k) /\ (w = 0 -> k = 0) /\ (ok = true -> solves g rtol atol w (snd (nth i pts nopt)) k)) ->
     exists k1 k2 ok', Ok (Pair (map (fun q => fst q * cos (snd q)) (combine ks (map (fun p : R * R * depth => snd (fst p)) pts)))
       (map (fun q => fst q * sin (snd q) * 1) (combine ks (map (fun p : R * R * depth => snd (fst p)) pts))), ok) = Ok (Pair k1 k2, ok') /\ List.length k1 = List.length pts /\ List.length k2 = List.length pts /\
     forall i, (i < List.length pts)%nat -> let w := fst (fst (nth i pts nopt)) in let th := snd (fst (nth i pts nopt)) in let h := snd (nth i pts nopt) in
     exists k, nth i k1 0 = k * cos th /\ nth i k2 0 = k * sin th /\ (w <> 0 -> 0 < w * k) /\ (w = 0 -> k = 0) /\ (ok' = true -> solves g rtol atol w h k)).
  { intros ks ok L H. do 3 eexists. split; [reflexivity|]. rewrite !map_length, combine_length, map_length, L, Nat.min_id. do 2 (split; [reflexivity|]).
    intros i Hi. cbv zeta. exists (nth i ks 0). specialize (H i Hi). cbv zeta in H.
    rewrite !(nth_map _ _ i (0, 0)) by (rewrite combine_length, map_length; lia). rewrite combine_nth by (rewrite map_length; lia).
    rewrite (nth_map (fun p : R * R * depth => snd (fst p)) pts i nopt 0) by lia. cbn [fst snd]. split; [reflexivity|]. split; [ring|]. exact H. }
  destruct (forallb (fun p => is_deep (snd p)) pts) eqn:D.
  - apply Fin; [now rewrite map_length|]. intros i Hi. cbv zeta. rewrite (nth_map (fun p : R * R * depth => deep_k g (fst (fst p))) pts i nopt 0) by lia.
    rewrite forallb_forall in D. specialize (D (nth i pts nopt) ltac:(apply nth_In; lia)).
    destruct (nth i pts nopt) as [[w th] h] eqn:Ei. cbn [fst snd] in *. assert (E : deep_k g w = sgn w * (w ^ 2 / g)) by (unfold deep_k; field; lra). rewrite E.
    split; [apply SG|]. split; [intros ->; field; lra|]. intros _. unfold solves. destruct h as [|h]; [reflexivity|]. cbn [is_deep] in D.
    destruct (Rlt_dec (10 ^ 25) h); [|discriminate].
    destruct (Rle_dec (10 ^ 25) h) as [|N]; [reflexivity|]. exfalso. apply N. lra.
  - cbn [List.length Nat.eqb]. destruct (w2k_loop g rtol atol limit (map (fun p : R * R * depth => start g (fst (fst p)) (snd p)) pts)) as [r ok] eqn:E.
    apply loop_good in E; auto.
    2:{ intros p Hp. apply in_map_iff in Hp. destruct Hp as ([[w th] h] & <- & Hq). apply start_good; auto. cbn [snd]. eapply Hh; eauto. }
    destruct E as (G & Q & A). assert (Lr : List.length r = List.length pts). { apply (f_equal (@List.length _)) in Q. now rewrite !map_length in Q. }
    apply Fin; [now rewrite map_length|]. intros i Hi. cbv zeta. set (d := Point 0 Deep 0 0 false). rewrite (nth_map pk r i d 0) by lia.
    specialize (G (nth i r d) ltac:(apply nth_In; lia)). assert (Qi := f_equal (fun l => nth i l (0, Deep)) Q). cbn beta in Qi.
    rewrite (nth_map (fun p => (pw p, ph p)) r i d) in Qi by lia. rewrite map_map in Qi. rewrite (nth_map _ pts i nopt) in Qi by lia. pose proof (f_equal fst Qi) as Q1. pose proof (f_equal snd Qi) as Q2. cbn [fst snd start pw ph] in Q1, Q2.
    rewrite <- Q1, <- Q2. split; [|split].
    + intros W. unfold good in G. destruct (ph (nth i r d)) as [|h]; [destruct G as (_ & -> & _); auto|]. destruct G as [_ G]. destruct (Rle_dec (10 ^ 25) h); [destruct G as (_ & -> & _); auto|]. apply G, W.
    + intros W. unfold good in G. assert (S0 : sgn (pw (nth i r d)) * (pw (nth i r d) ^ 2 / g) = 0) by (rewrite W; field; lra).
      destruct (ph (nth i r d)) as [|h]; [destruct G as (_ & -> & _); auto|]. destruct G as [_ G]. destruct (Rle_dec (10 ^ 25) h); [destruct G as (_ & -> & _); auto|]. apply G, W.
    + intros K. apply good_solves; auto. apply A; auto. apply nth_In. lia.
Qed.
