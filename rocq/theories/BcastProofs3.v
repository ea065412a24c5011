(* A label denotes one multiple of pi only. *)
From Coq Require Import List Arith ZArith Lia String Ascii Decimal DecimalString DecimalZ Bool.
From Verif Require Import Base BcastModel BcastSpec BcastProofs2.
Local Open Scope string_scope.

Fixpoint slashless (s : string) : Prop := match s with EmptyString => True | String c s' => c <> "\"%char /\ slashless s' end.
Lemma uint_slashless : forall s u, NilEmpty.uint_of_string s = Some u -> slashless s.
Proof.
  induction s as [|c s IH]; intros u H; cbn in *; [exact I|]. unfold uint_of_char in H. destruct (NilEmpty.uint_of_string s) as [v|].
  - split; [|apply (IH v); reflexivity]. intros ->. discriminate.
  - destruct c as [[] [] [] [] [] [] [] []]; discriminate.
Qed.
Lemma zero_slashless : forall s u, NilZero.uint_of_string s = Some u -> slashless s.
Proof. intros [|c s] u H; [exact I|]. exact (uint_slashless (String c s) u H). Qed.
Lemma numeral_slashless : forall s n, numeral s n -> slashless s.
Proof.
  intros s n H. unfold numeral, NilZero.int_of_string in H. destruct s as [|c s]; [exact I|].
  destruct (ascii_dec c "-"%char) as [->|N].
  - cbn in H. destruct (NilZero.uint_of_string s) as [u|] eqn:E; [|discriminate]. split; [discriminate|exact (zero_slashless s u E)].
  - destruct (NilZero.uint_of_string (String c s)) as [u|] eqn:E; [exact (zero_slashless (String c s) u E)|].
    destruct (Ascii.eqb_spec c "-"%char) as [F|F]; [contradiction|]. discriminate.
Qed.
Lemma factor_slashless : forall s n, factor_text s n -> slashless s.
Proof. intros s n [[-> _]|[[-> _]|H]]; [exact I|split; [discriminate|exact I]|exact (numeral_slashless s n H)]. Qed.
Lemma split_once : forall a a' r r', slashless a -> slashless a' -> a ++ String "\"%char r = a' ++ String "\"%char r' -> a = a' /\ r = r'.
Proof.
  induction a as [|c a IH]; intros [|c' a'] r r' H H' E; cbn in *.
  - injection E as ->. split; reflexivity.
  - injection E as <- _. destruct H' as [N _]. contradiction.
  - injection E as -> _. destruct H as [N _]. contradiction.
  - injection E as <- E. destruct (IH a' r r' (proj2 H) (proj2 H') E) as [-> ->]. split; reflexivity.
Qed.
Lemma factor_one : forall s n m, factor_text s n -> factor_text s m -> n = m.
Proof.
  intros s n m [[-> ->]|[[-> ->]|H]] [[E ->]|[[E ->]|K]]; try discriminate; try reflexivity; subst; try discriminate.
  unfold numeral in *. congruence.
Qed.
Lemma divisor_one : forall s n m, divisor_text s n -> divisor_text s m -> n = m.
Proof.
  intros s n m [[-> ->]|(r & -> & H)] [[E ->]|(r' & E & K)]; try discriminate; try reflexivity.
  injection E as <-. unfold numeral in *. congruence.
Qed.
Lemma pi_unique : forall txt n d n' d', pi_text txt n d -> pi_text txt n' d' -> n = n' /\ d = d'.
Proof.
  intros txt n d n' d' (a & b & E & F & D) (a' & b' & E' & F' & D'). rewrite E in E'. cbn in E'.
  destruct (split_once a a' _ _ (factor_slashless _ _ F) (factor_slashless _ _ F') E') as [-> R]. cbn in R. injection R as ->.
  split; [exact (factor_one _ _ _ F F')|exact (divisor_one _ _ _ D D')].
Qed.
