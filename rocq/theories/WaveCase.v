(* Upper and lower case letters, for the statement that sensor names are case insensitive. *)
From Coq Require Import String Ascii List.
From Verif Require Import Base WaveModel.
(* the same letter, or the upper and the lower case form of one letter *)
Definition same_letter (a b : ascii) : Prop :=
  a = b \/ exists i, String.get i "ABCDEFGHIJKLMNOPQRSTUVWXYZ"%string = Some a /\ String.get i "abcdefghijklmnopqrstuvwxyz"%string = Some b.
Inductive same_word : string -> string -> Prop :=
| same_empty : same_word EmptyString EmptyString
| same_cons : forall a b s t, same_letter a b -> same_word s t -> same_word (String a s) (String b t).
Lemma same_letter_lower : forall a b, same_letter a b -> lower_char a = lower_char b.
Proof.
  intros a b [->|(i & A & B)]; [reflexivity|].
  do 26 (destruct i as [|i]; [cbn in A, B; injection A as <-; injection B as <-; reflexivity|]). cbn in A. discriminate.
Qed.
Lemma same_word_lower : forall s t, same_word s t -> lower s = lower t.
Proof. intros s t H. induction H as [|a b s t H _ IH]; [reflexivity|]. cbn [lower]. rewrite (same_letter_lower a b H), IH. reflexivity. Qed.
Lemma case_insensitive : forall s t, same_word s t -> sensor_typeid [Str s] = sensor_typeid [Str t].
Proof. intros s t H. unfold sensor_typeid. cbn [mapM typeid1]. rewrite (same_word_lower s t H). reflexivity. Qed.
