From Coq Require Import Reals Lra Lia Psatz String.
From Coquelicot Require Import Coquelicot.
From Verif Require Import Base PolyModel KdeModel GridModel GridSpec ProcSpec ProcProofs CovModel CovSpec CovProofs CovProofs2 CovProofs3 SpcovModel SpcovSpec SpcovProofs3 SpectModel SpectSpec SpectProofs SpectProofs2 SpectProofs3 SpectProofs4 SpectProofs5.
Local Open Scope R_scope.

Lemma combine_filter_len (s : spectrum) n i : spectrum_on n s -> (i < n)%nat -> 0 < at_R (sargs s) i ->
  (1 <= List.length (sargs (positive_part s)))%nat /\ List.length (sdata (positive_part s)) = List.length (sargs (positive_part s)).
Proof.
  intros (Hn & L1 & L2 & _) Hi P. unfold positive_part. cbn [sargs sdata]. rewrite !map_length. split; [|reflexivity].
  assert (I : In (at_R (sargs s) i, at_R (sdata s) i) (filter (fun p => if Rlt_dec 0 (fst p) then true else false) (combine (sargs s) (sdata s)))).
  { apply filter_In. split; [|cbn [fst]; destruct (Rlt_dec 0 (at_R (sargs s) i)); [easy|lra]].
    unfold at_R. rewrite <- combine_nth by lia. apply nth_In. rewrite combine_length. lia. }
  destruct (filter _ _); [destruct I|cbn; lia].
Qed.
Lemma over_value (f : R -> R -> R) s n i : spectrum_on n s -> (i < n)%nat -> 0 < at_R (sargs s) i -> freqtype s <> Hertz ->
  let p := positive_part s in simps (map2 f (sargs p) (sdata p)) (sargs p) = simpson (List.length (sargs p)) (omega p) (fun l => f (omega p l) (density p l)).
Proof.
  intros H Hi P F p. destruct (combine_filter_len s n i H Hi P) as (A & B). fold p in A, B.
  rewrite (simps_value _ _ (List.length (sargs p))) by (rewrite ?len_map2; auto).
  apply simpson_ext; [easy| |]; intros l Hl; [|rewrite at_map2 by lia]; unfold omega, density; change (freqtype p) with (freqtype s); destruct (freqtype s); easy.
Qed.
Lemma matches_omega T s n i : spectrum_on n s -> (i < n)%nat -> 0 < at_R (sargs s) i -> freqtype s <> Hertz -> 0 < T -> matches (momenta_of T s) (hz_moment s) (hz_covariance s T).
Proof.
  intros H Hi P F HT. pose proof two_pi as E. unfold matches, momenta_of. cbn [mom m_1 mij m_10 m_11].
  assert (O : forall f, simps (map2 f (sargs (positive_part s)) (sdata (positive_part s))) (sargs (positive_part s)) = simpson (List.length (sargs (positive_part s))) (omega (positive_part s)) (fun l => f (omega (positive_part s) l) (density (positive_part s) l))) by (intros f; now apply (over_value f s n i)).
  assert (C : forall k, 0 < (2 * PI) ^ k) by (intros; now apply pow_lt).
  assert (NZ : forall k, (2 * PI) ^ k <> 0) by (intros k0; specialize (C k0); lra).
  split; [|split; [|split; [|split]]].
  - intros k Hk. rewrite (moment_at _ _ _ _ _ H) by lia. destruct k; [reflexivity|]. cbn [Z.of_nat hz_moment]. rewrite SuccNat2Pos.id_succ || idtac. now replace (Z.to_nat (Z.pos (Pos.of_succ_nat k))) with (S k) by lia.
  - rewrite O. cbn [hz_moment]. unfold reciprocal. rewrite Rmult_assoc. f_equal. apply simpson_ext; [now apply (combine_filter_len s n i)|easy|]. intros; cbn [Nat.add pow]; unfold Rdiv; rewrite !Rmult_1_r; reflexivity.
  - intros k Hk. rewrite (moment_at _ _ _ _ _ H) by lia. destruct k.
    + cbn [Z.of_nat hz_covariance Z.to_nat pow]. field. lra.
    + cbn [Z.of_nat hz_covariance]. replace (Z.to_nat (Z.pos (Pos.of_succ_nat k))) with (S k) by lia. specialize (C (S k)). field. split; lra.
  - rewrite O. cbn [hz_covariance]. unfold reciprocal. f_equal. f_equal. apply simpson_ext; [now apply (combine_filter_len s n i)|easy|]. intros. cbn [Nat.add]. rewrite pow_1. reflexivity.
  - rewrite O. cbn [hz_covariance]. unfold reciprocal. f_equal.
Qed.
Lemma hz_pos s k : positive_moments s -> (k <= 4)%nat -> 0 < hz_moment s (Z.of_nat k).
Proof.
  intros P Hk. pose proof two_pi. assert (hz_moment s (Z.of_nat k) = moment_of s 0 k / (2 * PI) ^ k) as ->.
  { unfold hz_moment. destruct k; [reflexivity|]. cbn [Z.of_nat]. now replace (Z.to_nat (Z.pos (Pos.of_succ_nat k))) with (S k) by lia. }
  apply Rdiv_lt_0_compat; [now apply P|now apply pow_lt].
Qed.

(* selection *)
Lemma in_range ids : (forall i, In i ids -> (i < 15)%nat) -> existsb (fun i => ((14 <? i) || (i <? 0))%Z%bool) (map Z.of_nat ids) = false.
Proof.
  intros H. apply Bool.not_true_is_false. intros E. apply existsb_exists in E as (x & I & E). apply in_map_iff in I as (i & <- & I). specialize (H i I).
  apply Bool.orb_true_iff in E as [E|E]; apply Z.ltb_lt in E; lia.
Qed.
Lemma characteristic_value T g s ids : (forall i, In i ids -> (i < 15)%nat) ->
  characteristic (map (fun i => Index (Z.of_nat i)) ids) T g s
  = Ok (map (at_R (characteristics g (momenta_of T s) s)) ids, map (fun i => map (cov_entry g (momenta_of T s) i) ids) ids, map (fun i => nth i tfact1 EmptyString) ids).
Proof.
  intros H. unfold characteristic. assert (A : map factor_id (map (fun i => Index (Z.of_nat i)) ids) = map Z.of_nat ids) by now rewrite map_map. rewrite A, in_range by easy.
  assert (E : map Z.to_nat (map Z.of_nat ids) = ids) by (rewrite map_map; rewrite <- (map_id ids) at 2; apply map_ext; intros; apply Nat2Z.id). now rewrite E.
Qed.
Lemma everything_value T g s : characteristic everything T g s
  = Ok (map (at_R (characteristics g (momenta_of T s) s)) (seq 0 15), map (fun i => map (cov_entry g (momenta_of T s) i) (seq 0 15)) (seq 0 15), tfact1).
Proof. unfold everything. rewrite characteristic_value; [reflexivity|]. intros i I. apply in_seq in I. lia. Qed.
Lemma characteristic_selects T g s ids : (forall i, In i ids -> (i < 15)%nat) -> exists ch r txt, characteristic everything T g s = Ok (ch, r, txt)
  /\ characteristic (map (fun i => Index (Z.of_nat i)) ids) T g s = Ok (map (at_R ch) ids, map (fun i => map (fun k => nth k (nth i r []) None) ids) ids, map (fun i => nth i txt EmptyString) ids).
Proof.
  intros H. rewrite everything_value, characteristic_value by easy. eexists _, _, _. split; [reflexivity|]. f_equal. f_equal. f_equal.
  apply map_ext_in. intros i I. rewrite (nth_map_seq _ 0 15) by now apply H. apply map_ext_in. intros k K. rewrite (nth_map_seq _ 0 15) by now apply H. reflexivity.
Qed.
Lemma out_of_range fact T g s : (exists i, In (Index i) fact /\ (i < 0 \/ 15 <= i)%Z) -> characteristic fact T g s = Err ValueError.
Proof.
  intros (i & I & H). unfold characteristic. assert (existsb (fun i => ((14 <? i) || (i <? 0))%Z%bool) (map factor_id fact) = true) as ->; [|reflexivity].
  apply existsb_exists. exists i. split; [apply in_map_iff; now exists (Index i)|]. apply Bool.orb_true_iff. destruct H; [right|left]; apply Z.ltb_lt; lia.
Qed.

(* names *)
Lemma lower_upper c : lower_char (upper_char c) = lower_char c.
Proof. destruct c as [a b c d e f g h]. destruct a, b, c, d, e, f, g, h; reflexivity. Qed.
Lemma lower_capitalize w : lower (capitalize w) = lower w.
Proof.
  destruct w as [|c w]; [reflexivity|]. cbn [capitalize lower]. rewrite lower_upper. f_equal. induction w as [|d w IH]; [reflexivity|]. cbn [lower]. rewrite IH. f_equal.
  destruct d as [a b c0 d e f g h]. destruct a, b, c0, d, e, f, g, h; reflexivity.
Qed.
Lemma upper_lower c : upper_char (lower_char c) = upper_char c.
Proof. destruct c as [a b c d e f g h]. destruct a, b, c, d, e, f, g, h; reflexivity. Qed.
Lemma capitalize_lower w : capitalize (lower w) = capitalize w.
Proof.
  destruct w as [|c w]; [reflexivity|]. cbn [capitalize lower]. rewrite upper_lower. f_equal. induction w as [|d w IH]; [reflexivity|]. cbn [lower]. rewrite IH. f_equal.
  destruct d as [a b c0 d e f g h]. destruct a, b, c0, d, e, f, g, h; reflexivity.
Qed.
Lemma same_capital a b : same_letters a b <-> capitalize a = capitalize b.
Proof.
  unfold same_letters. split; intros H.
  - rewrite <- (capitalize_lower a), <- (capitalize_lower b). now rewrite H.
  - rewrite <- (lower_capitalize a), <- (lower_capitalize b). now rewrite H.
Qed.
Lemma names_length : List.length names = 15%nat. Proof. reflexivity. Qed.
Lemma name_id w i : (i < 15)%nat -> same_letters w (nth i names EmptyString) -> factor_id (Name w) = Z.of_nat i.
Proof.
  intros Hi H. apply same_capital in H. cbn [factor_id]. rewrite H. do 15 (destruct i as [|i]; [reflexivity|]). lia.
Qed.
Lemma position_absent w : ~ In w tfact1 -> position_of w tfact1 0 = 15%Z.
Proof.
  assert (G : forall l i, ~ In w l -> position_of w l i = 15%Z).
  { induction l as [|a l IH]; intros i N; [reflexivity|]. cbn [position_of]. destruct (String.eqb_spec a w) as [->|]; [destruct N; now left|]. apply IH. intros I. apply N. now right. }
  apply G.
Qed.
Lemma capitals : tfact1 = map capitalize names. Proof. reflexivity. Qed.
Lemma name_unknown w fact T g s : (forall v, In v names -> ~ same_letters w v) -> In (Name w) fact -> characteristic fact T g s = Err ValueError.
Proof.
  intros H I. unfold characteristic. assert (existsb (fun i => ((14 <? i) || (i <? 0))%Z%bool) (map factor_id fact) = true) as ->; [|reflexivity].
  apply existsb_exists. exists 15%Z. split; [|reflexivity]. apply in_map_iff. exists (Name w). split; [|easy]. cbn [factor_id]. apply position_absent.
  rewrite capitals. intros K. apply in_map_iff in K as (v & E & K). apply (H v K). now apply same_capital.
Qed.
Lemma characteristic_names fact fact' T g s : List.length fact = List.length fact' -> (forall p, (p < List.length fact)%nat -> exists w i, (i < 15)%nat /\ same_letters w (nth i names EmptyString)
    /\ nth p fact (Index 0) = Name w /\ nth p fact' (Index 0) = Index (Z.of_nat i)) -> characteristic fact T g s = characteristic fact' T g s.
Proof.
  intros L H. assert (map factor_id fact = map factor_id fact') as E; [|unfold characteristic; now rewrite E].
  apply (nth_ext _ _ (factor_id (Index 0)) (factor_id (Index 0))); rewrite !map_length; [easy|]. intros p Hp. rewrite !(map_nth factor_id). destruct (H p Hp) as (w & i & Hi & Hw & -> & ->). now apply name_id.
Qed.

Lemma cov_symmetric g q i k : cov_entry g q i k = cov_entry g q k i.
Proof.
  destruct (Nat.lt_trichotomy i k) as [H|[->|H]]; [|reflexivity|].
  - unfold cov_entry. assert ((k <? i)%nat = false) as -> by (apply Nat.ltb_ge; lia). assert ((i <? k)%nat = true) as -> by (apply Nat.ltb_lt; lia). cbn [andb].
    destruct (i <? 2)%nat eqn:E; [reflexivity|]. apply Nat.ltb_ge in E. unfold upper_entry. assert ((i =? k)%nat = false) as -> by (apply Nat.eqb_neq; lia). assert ((k =? i)%nat = false) as -> by (apply Nat.eqb_neq; lia).
    destruct i as [|[|i]]; [lia..|]. destruct k as [|[|k]]; [lia..|]. reflexivity.
  - unfold cov_entry. assert ((i <? k)%nat = false) as -> by (apply Nat.ltb_ge; lia). assert ((k <? i)%nat = true) as -> by (apply Nat.ltb_lt; lia). cbn [andb].
    destruct (k <? 2)%nat eqn:E; [reflexivity|]. apply Nat.ltb_ge in E. unfold upper_entry. assert ((i =? k)%nat = false) as -> by (apply Nat.eqb_neq; lia). assert ((k =? i)%nat = false) as -> by (apply Nat.eqb_neq; lia).
    destruct i as [|[|i]]; [lia..|]. destruct k as [|[|k]]; [lia..|]. reflexivity.
Qed.
