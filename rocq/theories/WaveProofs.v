From Coq Require Import Reals ZArith Lra Lia String Ascii.
From Verif Require Import Base WaveModel WaveSpec.
Local Open Scope R_scope.

Lemma sgn_neg x : x < 0 -> sgn x = -1.
Proof. intros H. unfold sgn. destruct (Rlt_dec x 0); lra. Qed.
Lemma sgn_pos x : 0 < x -> sgn x = 1.
Proof. intros H. unfold sgn. destruct (Rlt_dec x 0); [lra|]. destruct (Rlt_dec 0 x); lra. Qed.
Lemma sgn_zero : sgn 0 = 0.
Proof. unfold sgn. destruct (Rlt_dec 0 0); lra. Qed.
Lemma sgn_lt x : (sgn x < 0 <-> x < 0).
Proof. unfold sgn. destruct (Rlt_dec x 0); [lra|]. destruct (Rlt_dec 0 x); lra. Qed.

(* sinh and cosh by exp(-2|x|) *)
Lemma exp_abs_cosh x : cosh x = exp (Rabs x) * (1 + exp (-2 * Rabs x)) / 2.
Proof.
  unfold cosh. replace (exp (-2 * Rabs x)) with (exp (- Rabs x) * exp (- Rabs x)) by (rewrite <- exp_plus; f_equal; ring).
  assert (E : exp (Rabs x) * exp (- Rabs x) = 1) by (rewrite <- exp_plus, Rplus_opp_r; apply exp_0).
  replace (exp (Rabs x) * (1 + exp (- Rabs x) * exp (- Rabs x)) / 2) with ((exp (Rabs x) + (exp (Rabs x) * exp (- Rabs x)) * exp (- Rabs x)) / 2) by field.
  rewrite E. unfold Rabs. destruct (Rcase_abs x); rewrite ?Ropp_involutive; lra.
Qed.
Lemma exp_abs_sinh x : exp (Rabs x) * (exp (-2 * Rabs x) - 1) / 2 = - sinh (Rabs x).
Proof.
  unfold sinh. replace (exp (-2 * Rabs x)) with (exp (- Rabs x) * exp (- Rabs x)) by (rewrite <- exp_plus; f_equal; ring).
  assert (E : exp (Rabs x) * exp (- Rabs x) = 1) by (rewrite <- exp_plus, Rplus_opp_r; apply exp_0).
  replace (exp (Rabs x) * (exp (- Rabs x) * exp (- Rabs x) - 1) / 2) with (((exp (Rabs x) * exp (- Rabs x)) * exp (- Rabs x) - exp (Rabs x)) / 2) by field.
  rewrite E. lra.
Qed.
Lemma sinh_abs_pos x : 0 < x -> sinh (Rabs x) = sinh x.
Proof. intros. now rewrite Rabs_pos_eq by lra. Qed.
Lemma sinh_opp x : sinh (- x) = - sinh x.
Proof. unfold sinh. rewrite Ropp_involutive. lra. Qed.
Lemma sinh_abs_neg x : x < 0 -> sinh (Rabs x) = - sinh x.
Proof. intros. rewrite Rabs_left by lra. apply sinh_opp. Qed.
Lemma sinh_zero : sinh 0 = 0.
Proof. unfold sinh. rewrite Ropp_0, exp_0. lra. Qed.
Lemma sinh_pos x : 0 < x -> 0 < sinh x.
Proof. intros. unfold sinh. pose proof (exp_increasing (- x) x ltac:(lra)). lra. Qed.
Lemma cosh_pos x : 0 < cosh x.
Proof. unfold cosh. pose proof (exp_pos x). pose proof (exp_pos (- x)). lra. Qed.

(* sign * exp|x| * term / 2 is the hyperbolic function *)
Definition sgn_of (s x : R) : R := if Rlt_dec (s * x) 0 then s else 1.
Definition term (s x : R) : R := if Rlt_dec s 0 then exp (-2 * Rabs x) - 1 else 1 + exp (-2 * Rabs x).
Lemma sgn_cases s : s <> 0 -> sgn s = 1 /\ 0 < s \/ sgn s = -1 /\ s < 0.
Proof. intros H. destruct (Rtotal_order s 0) as [L|[L|L]]; [right|lra|left]; split; auto; [now apply sgn_neg|now apply sgn_pos]. Qed.

Lemma hyper_term_eq s x : sgn_of (sgn s) x * exp (Rabs x) * term (sgn s) x / 2 = hyper s x.
Proof.
  assert (P : forall u, 0 <= u -> (if Rlt_dec (u * x) 0 then u else 1) * (exp (Rabs x) * (1 + exp (-2 * Rabs x)) / 2) = cosh x \/ u * x < 0).
  { intros u Hu. destruct (Rlt_dec (u * x) 0); [right; lra|left]. rewrite <- exp_abs_cosh. ring. }
  unfold hyper, sgn_of, term. unfold sgn. destruct (Rlt_dec s 0) as [N|N].
  - destruct (Rlt_dec (-1) 0) as [_|H]; [|lra].
    replace ((if Rlt_dec (-1 * x) 0 then -1 else 1) * exp (Rabs x) * (exp (-2 * Rabs x) - 1) / 2)
      with ((if Rlt_dec (-1 * x) 0 then -1 else 1) * (exp (Rabs x) * (exp (-2 * Rabs x) - 1) / 2)) by field.
    rewrite exp_abs_sinh. destruct (Rlt_dec (-1 * x) 0).
    + rewrite sinh_abs_pos by lra. ring.
    + destruct (Req_dec x 0) as [->|].
      * rewrite Rabs_R0, sinh_zero. ring.
      * rewrite sinh_abs_neg by lra. ring.
  - destruct (Rlt_dec 0 s).
    + destruct (Rlt_dec 1 0); [lra|]. rewrite exp_abs_cosh. destruct (Rlt_dec (1 * x) 0); field.
    + destruct (Rlt_dec 0 0); [lra|]. rewrite exp_abs_cosh. rewrite Rmult_0_l. destruct (Rlt_dec 0 0); [lra|]. field.
Qed.
Lemma term_zero s x : term (sgn s) x = 0 <-> hyper s x = 0.
Proof.
  rewrite <- hyper_term_eq. pose proof (exp_pos (Rabs x)). split; intros E; [rewrite E; lra|].
  assert (sgn_of (sgn s) x <> 0). { unfold sgn_of. destruct (Rlt_dec (sgn s * x) 0); [|lra]. intros Z. rewrite Z in r. lra. }
  destruct (Req_dec (term (sgn s) x) 0); auto. exfalso. revert E. unfold Rdiv. repeat apply Rmult_integral_contrapositive_currified; auto; lra.
Qed.
Lemma sgn_of_pm s x : sgn_of (sgn s) x = 1 \/ sgn_of (sgn s) x = -1.
Proof.
  unfold sgn_of. destruct (Rlt_dec (sgn s * x) 0); [|now left]. unfold sgn in *. destruct (Rlt_dec s 0); [now right|]. destruct (Rlt_dec 0 s); [now left|]. lra.
Qed.

Definition sgn_ratio (a b sa sb : R) : R := if negative (sgn sb) (Num b) then sgn sb * (if negative (sgn sa) (Num a) then sgn sa else 1) else (if negative (sgn sa) (Num a) then sgn sa else 1).
Lemma sgn_ratio_eq a b sa sb : sgn_ratio a b sa sb = sgn_of (sgn sa) a * sgn_of (sgn sb) b.
Proof. unfold sgn_ratio, negative, sgn_of. destruct (Rlt_dec (sgn sb * b) 0), (Rlt_dec (sgn sa * a) 0); ring. Qed.

Lemma hyperbolic_ratio_spec a b sa sb : hyper sb b <> 0 -> hyperbolic_ratio (Num a) (Num b) sa sb = Num (hyper sa a / hyper sb b).
Proof.
  intros Hb. unfold hyperbolic_ratio. cbv zeta. fold (sgn_ratio a b sa sb). rewrite sgn_ratio_eq.
  cbn [xabs hyper_term exp_m2]. fold (term (sgn sa) a) (term (sgn sb) b).
  assert (Tb : term (sgn sb) b <> 0) by (rewrite term_zero; exact Hb).
  assert (E : (if Req_EM_T (term (sgn sa) a) (term (sgn sb) b) then Num 1 else if Req_EM_T (term (sgn sb) b) 0 then xmul (Num (term (sgn sa) a)) PInf
     else Num (term (sgn sa) a * (1 / term (sgn sb) b))) = Num (term (sgn sa) a / term (sgn sb) b)).
  { destruct (Req_EM_T (term (sgn sa) a) (term (sgn sb) b)) as [e|_]; [f_equal; rewrite e; field; auto|].
    destruct (Req_EM_T (term (sgn sb) b) 0); [contradiction|]. f_equal. field. auto. }
  rewrite E. cbn [exp_diff xmul]. f_equal. rewrite <- (hyper_term_eq sa a), <- (hyper_term_eq sb b).
  unfold Rminus at 1. rewrite exp_plus, exp_Ropp. pose proof (exp_pos (Rabs b)).
  destruct (sgn_of_pm sb b) as [->| ->]; field; split; auto; lra.
Qed.
Lemma hyper_zero s x : hyper s x = 0 <-> s < 0 /\ x = 0.
Proof.
  unfold hyper. destruct (Rlt_dec s 0) as [N|N].
  - split; [|intros [_ ->]; apply sinh_zero]. intros E. split; auto. destruct (Rtotal_order x 0) as [L|[L|L]]; auto.
    + pose proof (sinh_pos (- x) ltac:(lra)). rewrite sinh_opp in H. lra.
    + pose proof (sinh_pos x L). lra.
  - split; [|tauto]. intros E. pose proof (cosh_pos x). lra.
Qed.
(* division by sinh 0 *)
Lemma hyperbolic_ratio_zero a sa sb : sb < 0 ->
  hyperbolic_ratio (Num a) (Num 0) sa sb =
    (if Req_EM_T (hyper sa a) 0 then Num 1 else if Rlt_dec 0 (hyper sa a) then PInf else NInf).
Proof.
  intros Hs. unfold hyperbolic_ratio. cbv zeta. fold (sgn_ratio a 0 sa sb). rewrite sgn_ratio_eq.
  cbn [xabs hyper_term exp_m2]. fold (term (sgn sa) a) (term (sgn sb) 0).
  assert (Tb : term (sgn sb) 0 = 0) by (apply term_zero, hyper_zero; auto). rewrite Tb.
  assert (S0 : sgn_of (sgn sb) 0 = 1) by (unfold sgn_of; rewrite Rmult_0_r; destruct (Rlt_dec 0 0); lra). rewrite S0, Rmult_1_r.
  rewrite Rabs_R0. pose proof (exp_pos (Rabs a)) as E. cbn [exp_diff]. rewrite Rminus_0_r.
  destruct (Req_EM_T (term (sgn sa) a) 0) as [Z|Z].
  - pose proof Z as Z'. rewrite term_zero in Z'. destruct (Req_EM_T (hyper sa a) 0); [|contradiction]. apply hyper_zero in Z'. destruct Z' as [Z1 Z2]. subst a. cbn [xmul].
    f_equal. rewrite Rabs_R0, exp_0. unfold sgn_of. rewrite Rmult_0_r. destruct (Rlt_dec 0 0); lra.
  - destruct (Req_EM_T 0 0) as [_|]; [|lra]. pose proof Z as Z'. rewrite term_zero in Z'. destruct (Req_EM_T (hyper sa a) 0); [contradiction|].
    pose proof (hyper_term_eq sa a) as H. cbn [xmul].
    destruct (sgn_of_pm sa a) as [Sg|Sg]; rewrite Sg in *; unfold xinf.
    + destruct (Rlt_dec (term (sgn sa) a) 0).
      * assert (exp (Rabs a) * term (sgn sa) a < 0) by nra. destruct (Rlt_dec 0 (hyper sa a)); [lra|]. cbn [xneg].
        destruct (Rlt_dec (1 * exp (Rabs a)) 0); [lra|]. destruct (Rlt_dec 0 (1 * exp (Rabs a))); [|lra]. reflexivity.
      * assert (0 < term (sgn sa) a) by lra. destruct (Rlt_dec 0 (term (sgn sa) a)); [|lra]. assert (0 < exp (Rabs a) * term (sgn sa) a) by nra.
        destruct (Rlt_dec 0 (hyper sa a)); [|lra]. destruct (Rlt_dec (1 * exp (Rabs a)) 0); [lra|]. destruct (Rlt_dec 0 (1 * exp (Rabs a))); [|lra]. reflexivity.
    + destruct (Rlt_dec (term (sgn sa) a) 0).
      * assert (exp (Rabs a) * term (sgn sa) a < 0) by nra. destruct (Rlt_dec 0 (hyper sa a)); [|lra].
        destruct (Rlt_dec (-1 * exp (Rabs a)) 0); [|lra]. reflexivity.
      * assert (0 < term (sgn sa) a) by lra. destruct (Rlt_dec 0 (term (sgn sa) a)); [|lra]. assert (0 < exp (Rabs a) * term (sgn sa) a) by nra.
        destruct (Rlt_dec 0 (hyper sa a)); [lra|]. destruct (Rlt_dec (-1 * exp (Rabs a)) 0); [|lra]. reflexivity.
Qed.
(* no intermediate quantity exceeds 2 except exp(|a| - |b|) *)
Lemma term_bound s x : exists r, hyper_term (sgn s) (xabs (Num x)) = Num r /\ Rabs r <= 2.
Proof.
  cbn. exists (term (sgn s) x). split; [reflexivity|].
  assert (0 < exp (-2 * Rabs x) <= 1).
  { split; [apply exp_pos|]. rewrite <- exp_0. destruct (Rabs_pos x) as [L|L]; [left; apply exp_increasing; lra|rewrite <- L; right; f_equal; lra]. }
  unfold term. destruct (Rlt_dec (sgn s) 0); apply Rabs_le; lra.
Qed.

(* ---- sensors ---- *)
Definition plain (s : string) : Prop := lower s = s.
Lemma ids_roundtrip i : (0 <= i < 18)%Z -> exists s, sensor_type [Int i] = Ok [Str s] /\ sensor_typeid [Str s] = Ok [Int i] /\ lower s = s.
Proof.
  intros H. assert (i = 0 \/ i = 1 \/ i = 2 \/ i = 3 \/ i = 4 \/ i = 5 \/ i = 6 \/ i = 7 \/ i = 8 \/ i = 9 \/ i = 10 \/ i = 11 \/ i = 12 \/ i = 13 \/ i = 14 \/ i = 15 \/ i = 16 \/ i = 17)%Z as D by lia.
  repeat (destruct D as [->|D]; [eexists; split; [reflexivity|split; reflexivity]|]). subst. eexists; split; [reflexivity|split; reflexivity].
Qed.
Lemma lookup_in t s i : lookup t s = Some i -> In (s, i) t.
Proof. induction t as [|[k v] t IH]; cbn; [discriminate|]. destruct (String.eqb_spec k s); intros E; [injection E as ->; subst; now left|right; auto]. Qed.
Lemma names_roundtrip s i : sensor_typeid [Str s] = Ok [Int i] -> (0 <= i < 18)%Z /\ sensor_type [Int i] = Ok [Str (lower s)].
Proof.
  unfold sensor_typeid. cbn [mapM typeid1 bind]. intros E. destruct (lookup sensorid_table (lower s)) as [z|] eqn:L; [|discriminate E]. injection E as ->. apply lookup_in in L. remember (lower s) as l.
  cbn in L. repeat (destruct L as [L|L]; [injection L as <- <-; split; [lia|reflexivity]|]). destruct L.
Qed.
Lemma typeid_total names : (exists r, sensor_typeid (map Str names) = Ok r /\ List.length r = List.length names /\
  forall k, (k < List.length names)%nat -> sensor_typeid [Str (nth k names EmptyString)] = Ok [nth k r NaNArg]).
Proof.
  induction names as [|s names (r & E & L & H)]; [exists []; cbn; repeat split; lia|].
  unfold sensor_typeid in *. cbn [map mapM typeid1 bind]. rewrite E. eexists. split; [reflexivity|]. split; [cbn; lia|].
  intros [|k] Hk; cbn [nth]; [reflexivity|]. apply H. cbn in Hk. lia.
Qed.
Lemma type_total ids : ids <> [] -> exists r, sensor_type (map Int ids) = Ok r /\ List.length r = List.length ids /\
  forall k, (k < List.length ids)%nat -> sensor_type [Int (nth k ids 0%Z)] = Ok [nth k r NaNArg].
Proof.
  intros NE. assert (T1 : forall i, exists a, type1 i = Ok a).
  { intros i. unfold type1. match goal with |- context[nth_error _ ?n] => set (m := n) end.
    destruct (nth_error valid_names m) eqn:N; [eauto|]. apply nth_error_None in N. subst m. change (List.length valid_names) with 19%nat in N.
    change (Z.of_nat 19 - 1)%Z with 18%Z in N.
    revert N. destruct (i <? 0)%Z eqn:B1; cbn [orb]; [change (Z.to_nat 18) with 18%nat; lia|]. destruct (18 <? i)%Z eqn:B2; [change (Z.to_nat 18) with 18%nat; lia|]. apply Z.ltb_ge in B1, B2. lia. }
  assert (A : forall l, mapM as_int (map Int l) = Ok l). { induction l as [|x l IH]; cbn; [reflexivity|]. now rewrite IH. }
  assert (M : forall l, exists r, mapM type1 l = Ok r /\ List.length r = List.length l /\ forall k, (k < List.length l)%nat -> type1 (nth k l 0%Z) = Ok (nth k r NaNArg)).
  { induction l as [|x l (r & E & L & H)]; [exists []; cbn; repeat split; lia|]. destruct (T1 x) as [a Ea]. exists (a :: r). cbn [mapM]. rewrite Ea. cbn [bind]. rewrite E.
    split; [reflexivity|]. split; [cbn; lia|]. intros [|k] Hk; cbn [nth]; [exact Ea|]. apply H. cbn in Hk. lia. }
  destruct (M ids) as (r & E & L & H). exists r. destruct ids as [|i ids]; [easy|]. unfold sensor_type. change (map Int (i :: ids)) with (Int i :: map Int ids).
  split; [|split; [exact L|]].
  - change (Int i :: map Int ids) with (map Int (i :: ids)). rewrite A. exact E.
  - intros k Hk. specialize (H k Hk). cbn [mapM as_int bind]. now rewrite H.
Qed.
Lemma type_unknown i : (i < 0 \/ 17 < i)%Z -> sensor_type [Int i] = Ok [NaNArg].
Proof.
  intros H. unfold sensor_type. cbn [mapM as_int bind]. unfold type1. change (Z.of_nat (List.length valid_names) - 1)%Z with 18%Z.
  destruct ((i <? 0) || (18 <? i))%Z%bool eqn:B; [reflexivity|]. apply Bool.orb_false_elim in B. assert (i = 18)%Z by lia. subst. reflexivity.
Qed.
(* an unknown name is nan, which sensor_type refuses *)
Lemma unknown_name s : lookup sensorid_table (lower s) = None -> exists r, sensor_typeid [Str s] = Ok r /\ sensor_type r = Err TypeError.
Proof. intros E. exists [NaNArg]. unfold sensor_typeid. cbn [mapM typeid1 bind]. now rewrite E. Qed.
Lemma sensors_by_id i : (i < 18)%nat -> exists s a, nth_error documented i = Some (s, a) /\ sensor_type [Int (Z.of_nat i)] = Ok [Str s] /\ find_sensor (Str s) = Ok a
  /\ (8 <= i -> find_sensor (Str (capital s)) = Ok a)%nat.
Proof.
  intros H. do 18 (destruct i as [|i]; [do 2 eexists; split; [reflexivity|]; split; [reflexivity|]; split; [reflexivity|]; intros; first [reflexivity|lia]|]). lia.
Qed.
Lemma sensor_id_raises i : find_sensor (Int i) = Err KeyError.
Proof.
  destruct (type_total [i] ltac:(discriminate)) as (r & E & _). unfold find_sensor. cbn [map] in E. now rewrite E.
Qed.
