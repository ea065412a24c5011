From Coq Require Import Reals Lra Lia.
From Coquelicot Require Import RInt RInt_analysis Hierarchy Continuity Derive AutoDerive Rbar.
From Verif Require Import Base PolyModel PolySpec PolyProofs PolyProofs2 OrthoModel OrthoProofs
  ChebModel ChebSpec ChebProofs ChebProofs2 ChebProofs3 QuadModel QuadSpec QuadProofs QuadProofs2 QuadProofs3 QuadProofs4 QuadProofs5 GeomProofs.
Local Open Scope R_scope.

Local Notation is_int := (@is_RInt R_NormedModule).

Lemma expand_spec n x w f : (2 <= n)%nat -> List.length x = ((n + 1) / 2)%nat -> List.length w = ((n + 1) / 2)%nat ->
  let r := expand_roots x w n ((n + 1) / 2) in
  List.length (fst r) = n /\ List.length (snd r) = n /\
  rule_sum (fst r) (snd r) f = rule_sum (firstn (n / 2) x) (firstn (n / 2) w) (fun t => f t + f (- t))
                               + (if Nat.odd n then at_R w (n / 2) * f 0 else 0).
Proof.
  intros Hn Hx Hw. destruct (half_cases n Hn) as [k [Hk [->| ->]]].
  - assert (E1 : ((2 * k + 1) / 2 = k)%nat) by (rewrite Nat.add_comm, Nat.mul_comm, Nat.div_add by lia; reflexivity).
    assert (E2 : (2 * k / 2 = k)%nat) by (rewrite Nat.mul_comm; apply Nat.div_mul; lia).
    rewrite E1 in *. rewrite E2. replace (Nat.odd (2 * k)) with false.
    2:{ symmetry. rewrite <- Nat.negb_even, Nat.even_mul. reflexivity. }
    destruct (expand_even x w k f Hk Hx Hw) as [L1 [L2 E]]. rewrite !firstn_all2 by lia. cbv zeta. rewrite L1, L2, E. repeat split. ring.
  - assert (E1 : ((2 * k + 1 + 1) / 2 = S k)%nat).
    { replace (2 * k + 1 + 1)%nat with (S k * 2)%nat by lia. apply Nat.div_mul. lia. }
    assert (E2 : ((2 * k + 1) / 2 = k)%nat) by (rewrite Nat.add_comm, Nat.mul_comm, Nat.div_add by lia; reflexivity).
    rewrite E1 in *. rewrite E2. replace (Nat.odd (2 * k + 1)) with true.
    2:{ symmetry. rewrite Nat.add_comm. rewrite Nat.odd_add_mul_2. reflexivity. }
    exact (expand_odd x w k f Hk Hx Hw).
Qed.
Lemma int_unique (f : R -> R) a b I J : integral f a b I -> integral f a b J -> I = J.
Proof.
  intros H K. rewrite <- (is_RInt_unique (V := R_CompleteNormedModule) f a b I H). exact (is_RInt_unique (V := R_CompleteNormedModule) f a b J K).
Qed.
Lemma int_one a b : integral (peval [1]) a b (b - a).
Proof. eapply is_int_val; [apply (is_int_ext (fun _ => 1)); [intros; cbn [peval List.length pow]; ring|apply is_int_const]|]. ring. Qed.
Lemma expand_single_wrong : plain_exact_for 2 (-1) 1 ([0], [2]) /\ ~ plain_exact_for 1 (-1) 1 (expand_roots [0] [2] 1 1).
Proof.
  split.
  - intros p Hp. destruct p as [|a [|b [|c p]]]; cbn [List.length] in Hp; [| | |lia].
    + eapply is_int_val; [apply (is_int_ext (fun _ => 0)); [intros; cbn [peval]; ring|apply is_int_const]|]. cbn [rule_sum fst snd peval]. ring.
    + eapply is_int_val; [apply (is_int_ext (fun _ => a)); [intros; cbn [peval List.length pow]; ring|apply is_int_const]|].
      cbn [rule_sum fst snd peval List.length pow]. ring.
    + eapply is_int_val; [apply (is_RInt_derive (V := R_CompleteNormedModule) (fun t => a * t ^ 2 / 2 + b * t) (peval [a; b]))|].
      * intros t _. auto_derive; [exact Logic.I|]. cbn [peval List.length pow]. field.
      * intros t _. apply cont_of, peval_cont.
      * change (a * 1 ^ 2 / 2 + b * 1 - (a * (-1) ^ 2 / 2 + b * -1) = rule_sum [0] [2] (peval [a; b])). cbn [rule_sum peval List.length pow]. field.
  - intros H. specialize (H [1] ltac:(cbn; lia)). pose proof (int_unique _ _ _ _ _ H (int_one (-1) 1)) as E.
    pose proof (expand_one 0 2 (peval [1])) as X. cbv zeta in X. rewrite X in E. cbn [peval List.length pow] in E. lra.
Qed.
Lemma boole_three : ~ integral (peval [1]) 0 2 (boole (map (peval [1]) (grid 0 2 3)) (grid 0 2 3)).
Proof.
  intros H. pose proof (int_unique _ _ _ _ _ H (int_one 0 2)) as E. revert E. unfold boole, grid.
  cbn [seq map List.length hd last Nat.sub]. unfold strided. cbn [List.length Nat.min seq filter Nat.leb andb Nat.sub].
  change (1 mod 4 =? 0)%nat with false. change (0 mod 2 =? 0)%nat with true. cbn [andb map sumR fold_right]. unfold at_R. cbn [nth peval List.length pow].
  change (INR 2) with (1 + 1). change (INR 0) with 0. intros E. unfold sumR in E. cbn in E. lra.
Qed.
Lemma trunc_half : trunc (1 / 2) = 0.
Proof.
  unfold trunc. destruct (Rle_dec 0 (1/2)) as [_|H]; [|lra].
  assert (E : up (1 / 2) = 1%Z) by (symmetry; apply tech_up; lra). unfold Int_part. rewrite E. reflexivity.
Qed.
Lemma clencurt_int_wrong : fst (clencurt trunc (peval [1]) (-1) 1 1) = 4 / 3.
Proof.
  unfold clencurt, clencurt_c, clencurt_f. cbn [fst vsum Nat.eqb orb peval List.length pow Nat.mul Nat.add].
  replace (1 * 1 + 0) with 1 by ring. rewrite trunc_half.
  change (INR 0) with 0. change (INR 1) with 1. change (INR 2) with (1 + 1). 
  replace (2 * PI * 0 * 0 / (1 + 1)) with 0 by field. replace (2 * PI * 0 * 1 / (1 + 1)) with 0 by field.
  replace (2 * PI * 1 * 0 / (1 + 1)) with 0 by field. replace (2 * PI * 1 * 1 / (1 + 1)) with PI by field. rewrite cos_0, cos_PI. field.
Qed.
Lemma clencurt_int_wrong' : ~ integral (peval [1]) (-1) 1 (fst (clencurt trunc (peval [1]) (-1) 1 1)).
Proof. intros H. rewrite clencurt_int_wrong in H. pose proof (int_unique _ _ _ _ _ H (int_one (-1) 1)). lra. Qed.

(* two concrete Gauss-Legendre rules *)
Lemma cubic p : (List.length p <= 6)%nat -> exists c0 c1 c2 c3 c4 c5, (forall t, peval p t = c5 * t ^ 5 + c4 * t ^ 4 + c3 * t ^ 3 + c2 * t ^ 2 + c1 * t + c0) /\
   ((List.length p <= 4)%nat -> c4 = 0 /\ c5 = 0).
Proof.
  intros H.
  destruct p as [|a p]; [exists 0, 0, 0, 0, 0, 0; split; [intros; cbn [peval]; ring|auto]|].
  destruct p as [|b p]; [exists a, 0, 0, 0, 0, 0; split; [intros; cbn [peval List.length]; ring|auto]|].
  destruct p as [|c p]; [exists b, a, 0, 0, 0, 0; split; [intros; cbn [peval List.length]; ring|auto]|].
  destruct p as [|d p]; [exists c, b, a, 0, 0, 0; split; [intros; cbn [peval List.length]; ring|auto]|].
  destruct p as [|e p]; [exists d, c, b, a, 0, 0; split; [intros; cbn [peval List.length]; ring|auto]|].
  destruct p as [|f p]; [exists e, d, c, b, a, 0; split; [intros; cbn [peval List.length]; ring|cbn [List.length]; lia]|].
  destruct p as [|g p]; [exists f, e, d, c, b, a; split; [intros; cbn [peval List.length]; ring|cbn [List.length]; lia]|]. cbn [List.length] in H. lia.
Qed.
Lemma cubic_int p c0 c1 c2 c3 c4 c5 : (forall t, peval p t = c5 * t ^ 5 + c4 * t ^ 4 + c3 * t ^ 3 + c2 * t ^ 2 + c1 * t + c0) ->
  is_int (peval p) (-1) 1 (2 * c4 / 5 + 2 * c2 / 3 + 2 * c0).
Proof.
  intros EQ. set (F := fun t => c5 * t ^ 6 / 6 + c4 * t ^ 5 / 5 + c3 * t ^ 4 / 4 + c2 * t ^ 3 / 3 + c1 * t ^ 2 / 2 + c0 * t).
  eapply is_int_val; [apply (is_RInt_derive (V := R_CompleteNormedModule) F (peval p))|].
  - intros t _. rewrite EQ. unfold F. auto_derive; [exact Logic.I|]. field.
  - intros t _. apply cont_of, peval_cont.
  - change (F 1 - F (-1) = 2 * c4 / 5 + 2 * c2 / 3 + 2 * c0). unfold F. field.
Qed.
Lemma legendre2 : plain_exact_for 4 (-1) 1 (expand_roots [- / sqrt 3] [1] 2 1).
Proof.
  intros p Hp. destruct (cubic p ltac:(lia)) as [c0 [c1 [c2 [c3 [c4 [c5 [EQ Z]]]]]]]. destruct (Z Hp) as [-> ->].
  eapply is_int_val; [exact (cubic_int _ _ _ _ _ _ _ EQ)|]. cbn [expand_roots fst snd Nat.ltb Nat.leb Nat.add Nat.eqb back_from firstn rev app map rule_sum].
  rewrite !EQ. assert (S3 : sqrt 3 * sqrt 3 = 3) by (apply sqrt_sqrt; lra). assert (P : 0 < sqrt 3) by (apply sqrt_lt_R0; lra).
  set (s := sqrt 3) in *. assert (I : / s * / s = 1 / 3) by (rewrite <- Rinv_mult, S3; lra). set (u := / s) in *.
  replace ((- u) ^ 2) with (1/3) by (rewrite <- I; ring). replace ((- - u) ^ 2) with (1/3) by (rewrite <- I; ring). field.
Qed.
Lemma legendre3 : plain_exact_for 6 (-1) 1 (expand_roots [- sqrt (3/5); 0] [5/9; 8/9] 3 2).
Proof.
  intros p Hp. destruct (cubic p ltac:(lia)) as [c0 [c1 [c2 [c3 [c4 [c5 [EQ Z]]]]]]].
  eapply is_int_val; [exact (cubic_int _ _ _ _ _ _ _ EQ)|]. cbn [expand_roots fst snd Nat.ltb Nat.leb Nat.add Nat.sub Nat.eqb back_from firstn skipn upd rev app map rule_sum].
  rewrite !EQ. assert (S3 : sqrt (3/5) * sqrt (3/5) = 3/5) by (apply sqrt_sqrt; lra).
  set (s := sqrt (3/5)) in *. 
  replace ((- s) ^ 2) with (3/5) by (rewrite <- S3; ring). replace ((- - s) ^ 2) with (3/5) by (rewrite <- S3; ring).
  replace ((- s) ^ 4) with ((3/5) * (3/5)) by (rewrite <- S3; ring). replace ((- - s) ^ 4) with ((3/5) * (3/5)) by (rewrite <- S3; ring). field.
Qed.
