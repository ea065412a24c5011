From Coq Require Import Reals List Lra Lia Bool Arith ZArith.
From Verif Require Import Base PolyModel TransModel PolySpec ArSpec CsimProofs ArProofs2 KernelProofs7 KdeModel ChebModel Sg2Spec Sg2Proofs Sg2Proofs2 PadeModel PadeSpec PadeProofs PadeProofs2 PadeProofs3.
Import ListNotations.
Local Open Scope R_scope.
Set Bullet Behavior "Strict Subproofs".

(* 1 + x + x^2 / 2 *)
Lemma exp_case solve : solves solve -> padefit solve false [1 / 2; 1; 1] (Some 1%Z) = Ok ([1 / 2; 1], [- (1 / 2); 1]) /\ padefit solve false [1 / 2; 1; 1] None = padefit solve false [1 / 2; 1; 1] (Some 1%Z).
Proof.
  intros [S1 S2]. split; [|reflexivity].
  - change (padefit solve false [1 / 2; 1; 1] (Some 1%Z)) with (let* pq := solve 3%nat (system [1; 1; 1 / 2] 1) (at_R [1; 1; 1 / 2]) in Ok (rev (map pq (seq 0 2)), rev (1 :: map pq (seq 2 1)))).
    destruct (S2 3%nat (system [1; 1; 1 / 2] 1) (at_R [1; 1; 1 / 2]) (fun j => match j with O => 1 | S O => 1 / 2 | _ => - (1 / 2) end)) as [y Y].
    + intros r Hr. destruct r as [|[|[|r]]]; [| | |lia]; unfold system; cbn; lra.
    + intros y H j Hj. pose proof (H 0%nat ltac:(lia)) as H0. pose proof (H 1%nat ltac:(lia)) as H1. pose proof (H 2%nat ltac:(lia)) as H2. unfold system in H0, H1, H2. cbn in H0, H1, H2. destruct j as [|[|[|j]]]; [| | |lia]; lra.
    + rewrite Y. cbn [bind]. pose proof (S1 _ _ _ _ Y) as H. pose proof (H 0%nat ltac:(lia)) as H0. pose proof (H 1%nat ltac:(lia)) as H1. pose proof (H 2%nat ltac:(lia)) as H2. unfold system in H0, H1, H2. cbn in H0, H1, H2.
      cbn. f_equal. f_equal; repeat (f_equal; try lra).
Qed.
(* polynomials: k = 0 *)
Lemma pass_0 pinv m npt x fs st : exists st', pass pinv m 0 npt x fs st = Ok st'.
Proof.
  destruct st as [[[wt ee] mad] [small c]]. unfold pass. cbv zeta. match goal with |- context [has_zero npt ?d x] => replace (has_zero npt d x) with false end; [eexists; reflexivity|].
  symmetry. unfold has_zero, den_of. cbn [seq map rev app]. induction (seq 0 npt) as [|i l IH]; [reflexivity|]. cbn [existsb]. rewrite IH. unfold polyval. cbn [fold_left]. destruct (Req_EM_T (0 * x i + 1) 0) as [E|E]; [lra|reflexivity].
Qed.
Lemma passes_0 n pinv m npt x fs : forall st, exists st', passes n pinv m 0 npt x fs st = Ok st'.
Proof. induction n as [|n IH]; intros st; [now exists st|]. cbn [passes]. destruct (pass_0 pinv m npt x fs st) as [s1 ->]. cbn [bind]. apply IH. Qed.
Definition line_x : list R := map INR (seq 0 16).
Definition line_f : list R := map (fun t => 2 * t + 1) line_x.
Lemma line_at i : (i < 16)%nat -> at_R line_x i = INR i /\ at_R line_f i = 2 * INR i + 1.
Proof.
  intros H. assert (E : at_R line_x i = INR i) by (unfold at_R, line_x; change 0 with (INR 0); rewrite map_nth, seq_nth by exact H; reflexivity). split; [exact E|].
  unfold at_R, line_f, line_x in *. rewrite map_map. set (g := fun n => 2 * INR n + 1). rewrite (nth_indep (map g (seq 0 16)) 0 (g 0%nat)) by (rewrite map_length, seq_length; exact H). rewrite map_nth, seq_nth by exact H. reflexivity.
Qed.
Lemma line_case pinv : is_inverse pinv -> exists num den, padefitlsq pinv (Values line_f) 1 0 0 1 (Some line_x) true = Ok (num, den) /\ same_quotient num den [2; 1] [1].
Proof.
  intros MP.
  assert (R : exists num den, padefitlsq pinv (Values line_f) 1 0 0 1 (Some line_x) true = Ok (num, den)).
  { unfold padefitlsq. cbv zeta. cbn [bind]. change (negb (List.length line_x =? 8 * (1 + 0 + 1))%nat || negb (List.length line_f =? 8 * (1 + 0 + 1))%nat)%bool with false. cbv iota. change (8 * (1 + 0 + 1))%nat with 16%nat.
    set (st0 := (fun _ : nat => 1, fun _ : nat => 1, 0, (10 ^ 30, None)) : (nat -> R) * (nat -> R) * R * best).
    change (passes 5 pinv 1 0 16 (at_R line_x) (at_R line_f) st0) with (let* st' := pass pinv 1 0 16 (at_R line_x) (at_R line_f) st0 in passes 4 pinv 1 0 16 (at_R line_x) (at_R line_f) st').
    destruct (pass_0 pinv 1 16 (at_R line_x) (at_R line_f) st0) as [s1 P]. rewrite P. cbn [bind]. destruct (passes_0 4 pinv 1 16 (at_R line_x) (at_R line_f) s1) as [s2 Q]. rewrite Q. cbn [bind].
    destruct (first_pass pinv 1 0 16 _ _ s1 MP ltac:(lia) P) as [K1 (num1 & den1 & d1 & L1 & L2 & [D0 Fit] & [Dv [i1 [Hi1 E1]]] & Le)].
    destruct (passes_spec _ _ _ _ _ _ _ _ _ (Nat.lt_0_succ _) K1 Q) as [K2 Le2]. destruct (snd (snd s2)) as [[num den]|] eqn:C; [now exists num, den|]. exfalso.
    unfold kept in K2. rewrite C in K2. assert (G : d1 = 0); [|pose proof (pow_lt 10 30 ltac:(lra)); lra].
    assert (R0 : residual 16 (at_R line_x) (at_R line_f) num1 den1 <= 0).
    { eapply Rle_trans; [apply (Fit [2; 1] [1]); [rewrite L1; reflexivity|rewrite L2; reflexivity|cbn; ring]|]. apply Req_le. unfold residual. rewrite (sum_ext _ _ (fun _ => 0)); [apply sum_0|]. intros i Hi. destruct (line_at i Hi) as [-> ->]. cbn. ring. }
    assert (Z : peval num1 (at_R line_x i1) - at_R line_f i1 * peval den1 (at_R line_x i1) = 0).
    { apply (sum_squares0 16 (fun i => peval num1 (at_R line_x i) - at_R line_f i * peval den1 (at_R line_x i))); [|exact Hi1]. unfold residual in R0. rewrite (sum_ext _ _ (fun i => (peval num1 (at_R line_x i) - at_R line_f i * peval den1 (at_R line_x i)) * (peval num1 (at_R line_x i) - at_R line_f i * peval den1 (at_R line_x i)))) in R0 by (intros; ring).
      apply Rle_antisym; [exact R0|]. apply ArProofs2.sum_nonneg. intros i Hi. apply Rle_0_sqr. }
    rewrite <- E1. destruct (Dv i1 Hi1) as [Nz _]. replace (peval num1 (at_R line_x i1)) with (at_R line_f i1 * peval den1 (at_R line_x i1)) by lra. replace (at_R line_f i1 * peval den1 (at_R line_x i1) / peval den1 (at_R line_x i1) - at_R line_f i1) with 0 by (field; exact Nz). apply Rabs_R0. }
  destruct R as (num & den & E). exists num, den. split; [exact E|]. apply (lsq_exact pinv line_f 1 0 0 1 line_x true num den [2; 1] [1] MP E).
  - unfold line_x. apply FinFun.Injective_map_NoDup; [|apply seq_NoDup]. intros i j H. now apply INR_eq.
  - cbn; lia.
  - cbn; lia.
  - cbn; lra.
  - intros i Hi. change (List.length line_x) with 16%nat in Hi. destruct (line_at i Hi) as [-> ->]. cbn. split; [lra|field].
Qed.
