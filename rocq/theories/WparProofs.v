From Coq Require Import Reals List ZArith Bool String Lra Lia.
From Verif Require Import Base CrossModel CrossSpec ListFacts CrossProofs TcProofs EcrossModel EcrossProofs FilterModel WparModel WparSpec.
Import ListNotations.
Local Open Scope list_scope.
Local Open Scope R_scope.

(* lists written as map f (seq 0 n) *)
Lemma tab {A} (l : list A) d : l = map (fun j => nth j l d) (seq 0 (List.length l)).
Proof.
  apply (nth_ext _ _ d d); [rewrite map_length, seq_length; reflexivity|].
  intros n H. rewrite (nth_indep (map _ _) d (nth 0%nat l d)) by (rewrite map_length, seq_length; exact H).
  rewrite (map_nth (fun j => nth j l d)), seq_nth by exact H. reflexivity.
Qed.
Lemma map_seq_ext {A} (f g : nat -> A) n : (forall i, (i < n)%nat -> f i = g i) -> map f (seq 0 n) = map g (seq 0 n).
Proof. intros H. apply map_ext_in. intros i I. apply in_seq in I. apply H. lia. Qed.
Lemma seq_shift_map {A} (f : nat -> A) n : map f (seq 1 n) = map (fun i => f (S i)) (seq 0 n).
Proof. rewrite <- seq_shift, map_map. reflexivity. Qed.
Lemma tl_tab {A} (f : nat -> A) k : tl (map f (seq 0 (S k))) = map (fun i => f (S i)) (seq 0 k).
Proof. cbn [seq map tl]. apply seq_shift_map. Qed.
Lemma skipn_tab {A} s : forall (f : nat -> A) n, skipn s (map f (seq 0 (s + n))) = map (fun i => f (s + i)%nat) (seq 0 n).
Proof.
  induction s as [|s IH]; intros f n; [reflexivity|]. cbn [Nat.add seq map skipn]. rewrite seq_shift_map. apply (IH (fun i => f (S i)) n).
Qed.
Lemma removelast_tab {A} (f : nat -> A) k : removelast (map f (seq 0 (S k))) = map f (seq 0 k).
Proof. rewrite seq_S, map_app. cbn [map Nat.add]. apply removelast_last. Qed.
Lemma diff_tab f : forall k, diffR (map f (seq 0 (S k))) = map (fun i => f (S i) - f i) (seq 0 k).
Proof.
  intros k. revert f. induction k as [|k IH]; intros f; [reflexivity|].
  cbn [seq map]. cbn [diffR]. f_equal. rewrite (seq_shift_map _ k), <- (IH (fun i => f (S i))). rewrite <- seq_shift_map. reflexivity.
Qed.
Lemma both_tab {A B C} (op : A -> B -> C) f g k : both op (map f (seq 0 k)) (map g (seq 0 k)) = Ok (map (fun i => op (f i) (g i)) (seq 0 k)).
Proof.
  unfold both. rewrite !map_length, Nat.eqb_refl. f_equal. generalize (seq 0 k) as l. induction l as [|a l IH]; [reflexivity|]. cbn. f_equal. exact IH.
Qed.
Lemma every2_tab_odd {A} : forall k (f : nat -> A), every2 (map f (seq 0 (2 * k + 1))) = map (fun i => f (2 * i)%nat) (seq 0 (k + 1)).
Proof.
  induction k as [|k IH]; intros f; [reflexivity|]. replace (2 * S k + 1)%nat with (S (S (2 * k + 1))) by lia. cbn [Nat.add seq map]. cbn [every2].
  f_equal. rewrite <- (seq_shift (2 * k + 1) 1), map_map, seq_shift_map, (IH (fun i => f (S (S i)))), seq_shift_map. apply map_ext. intros i. f_equal. lia.
Qed.
Lemma every2_tab_even {A} : forall k (f : nat -> A), every2 (map f (seq 0 (2 * k))) = map (fun i => f (2 * i)%nat) (seq 0 k).
Proof.
  induction k as [|k IH]; intros f; [reflexivity|]. replace (2 * S k)%nat with (S (S (2 * k))) by lia. cbn [seq map]. cbn [every2].
  f_equal. rewrite <- (seq_shift (2 * k) 1), map_map, seq_shift_map, (IH (fun i => f (S (S i)))), seq_shift_map. apply map_ext. intros i. f_equal. lia.
Qed.
Lemma step0_odd {A} k (f : nat -> A) : step2 0 (map f (seq 0 (2 * k + 1))) = map (fun i => f (2 * i)%nat) (seq 0 (S k)).
Proof. unfold step2. cbn [skipn]. rewrite every2_tab_odd. do 2 f_equal. lia. Qed.
Lemma step1_odd {A} k (f : nat -> A) : step2 1 (map f (seq 0 (2 * k + 1))) = map (fun i => f (2 * i + 1)%nat) (seq 0 k).
Proof. unfold step2. rewrite (Nat.add_comm (2 * k)), skipn_tab, (every2_tab_even k (fun i => f (1 + i)%nat)). apply map_ext. intros i. f_equal. lia. Qed.
Lemma step0_even {A} k (f : nat -> A) : step2 0 (map f (seq 0 (2 * k + 2))) = map (fun i => f (2 * i)%nat) (seq 0 (S k)).
Proof. unfold step2. cbn [skipn]. replace (2 * k + 2)%nat with (2 * S k)%nat by lia. apply every2_tab_even. Qed.
Lemma step1_even {A} k (f : nat -> A) : step2 1 (map f (seq 0 (2 * k + 2))) = map (fun i => f (2 * i + 1)%nat) (seq 0 (S k)).
Proof.
  unfold step2. replace (2 * k + 2)%nat with (1 + (2 * k + 1))%nat by lia. rewrite skipn_tab, (every2_tab_odd k (fun i => f (1 + i)%nat)).
  rewrite Nat.add_1_r. apply map_ext. intros i. f_equal. lia.
Qed.
Lemma step2_even {A} k (f : nat -> A) : step2 2 (map f (seq 0 (2 * k + 2))) = map (fun i => f (2 * i + 2)%nat) (seq 0 k).
Proof.
  unfold step2. rewrite (Nat.add_comm (2 * k)), skipn_tab, (every2_tab_even k (fun i => f (2 + i)%nat)). apply map_ext. intros i. f_equal. lia.
Qed.
Lemma geti_nth {A} (l : list A) d i : (i < List.length l)%nat -> geti l i = Ok (nth i l d).
Proof. intros H. unfold geti. rewrite (nth_error_nth' l d H). reflexivity. Qed.
Lemma pick_map {A B} (l : list A) d (f : B -> nat) : forall ind, (forall i, In i ind -> (f i < List.length l)%nat) ->
  pick l (map f ind) = Ok (map (fun i => nth (f i) l d) ind).
Proof.
  induction ind as [|i ind IH]; intros H; [reflexivity|]. cbn. rewrite (geti_nth l d) by (apply H; left; reflexivity). cbn.
  rewrite IH by (intros j J; apply H; right; exact J). reflexivity.
Qed.
Lemma pick_tab {A} (l : list A) d f k : (forall i, (i < k)%nat -> (f i < List.length l)%nat) ->
  pick l (map f (seq 0 k)) = Ok (map (fun i => nth (f i) l d) (seq 0 k)).
Proof. intros H. apply pick_map. intros i I. apply in_seq in I. apply H. lia. Qed.

Definition cr (t f : list R) (j : nat) : R := nth j t 0 + (0 - nth j f 0) * (nth (j + 1) t 0 - nth j t 0) / (nth (j + 1) f 0 - nth j f 0).
Lemma ecross_map' {B} t f (g : B -> nat) : List.length f = List.length t -> forall ind, (forall i, In i ind -> (S (g i) < List.length t)%nat) ->
  ecross t f (map g ind) 0 = Ok (map (fun i => cr t f (g i)) ind).
Proof.
  intros L. induction ind as [|i ind IH]; intros H; [reflexivity|]. cbn. unfold ecross1 at 1. pose proof (H i (or_introl eq_refl)) as Hi.
  rewrite (geti_nth t 0), (geti_nth f 0), (geti_nth t 0), (geti_nth f 0) by lia. cbn. rewrite IH by (intros j J; apply H; right; exact J). reflexivity.
Qed.
Lemma ecross_tab t f g k : List.length f = List.length t -> (forall i, (i < k)%nat -> (S (g i) < List.length t)%nat) ->
  ecross t f (map g (seq 0 k)) 0 = Ok (map (fun i => cr t f (g i)) (seq 0 k)).
Proof. intros L H. apply ecross_map'; [exact L|]. intros i I. apply in_seq in I. apply H. lia. Qed.

Lemma value_nth x j : nth j (map IZR x) 0 = value x j.
Proof. unfold value, at_. change 0 with (IZR 0) at 1. apply map_nth. Qed.
Lemma ascending_le t : ascending t -> forall a b, (a <= b < List.length t)%nat -> instant t a <= instant t b.
Proof. intros H a b I. destruct (Nat.eq_dec a b) as [->|]; [lra|]. pose proof (H a b ltac:(lia)). lra. Qed.

(* the zero of the chord of a crossing *)
Lemma cr_up t x j : List.length x = List.length t -> ascending t -> UpCross x 0 j ->
  zero_at t x j (cr t (map IZR x) j) /\ cr t (map IZR x) j < instant t (S j).
Proof.
  intros L A [B [U D]]. pose proof (D j (le_n j) ltac:(intros; lia)) as D'. unfold cr, zero_at. rewrite Nat.add_1_r, !value_nth.
  fold (instant t j) (instant t (S j)). pose proof (A j (S j) ltac:(lia)) as P. unfold value. apply IZR_lt in U. apply IZR_le in D'.
  set (a := instant t j) in *. set (b := instant t (S j)) in *. set (p := IZR (at_ x j)) in *. set (q := IZR (at_ x (S j))) in *.
  assert (E : a + (0 - p) * (b - a) / (q - p) = b - q * (b - a) / (q - p)) by (field; lra).
  assert (P1 : 0 <= (0 - p) * (b - a) / (q - p)) by (apply Rmult_le_pos; [apply Rmult_le_pos; lra|left; apply Rinv_0_lt_compat; lra]).
  assert (P2 : 0 < q * (b - a) / (q - p)) by (apply Rmult_lt_0_compat; [apply Rmult_lt_0_compat; lra|apply Rinv_0_lt_compat; lra]).
  split; [split; [lra|field; lra]|lra].
Qed.
Lemma cr_down t x j : List.length x = List.length t -> ascending t -> DownCross x 0 j ->
  zero_at t x j (cr t (map IZR x) j) /\ cr t (map IZR x) j < instant t (S j) /\ (0 < value x j -> instant t j < cr t (map IZR x) j).
Proof.
  intros L A [B [U D]]. pose proof (D j (le_n j) ltac:(intros; lia)) as D'. unfold cr, zero_at. rewrite Nat.add_1_r, !value_nth.
  fold (instant t j) (instant t (S j)). pose proof (A j (S j) ltac:(lia)) as P. unfold value. apply IZR_lt in U. apply IZR_le in D'.
  set (a := instant t j) in *. set (b := instant t (S j)) in *. set (p := IZR (at_ x j)) in *. set (q := IZR (at_ x (S j))) in *.
  assert (E : a + (0 - p) * (b - a) / (q - p) = b - (- q) * (b - a) / (p - q)) by (field; lra).
  assert (E' : (0 - p) * (b - a) / (q - p) = p * (b - a) / (p - q)) by (field; lra).
  assert (P1 : 0 <= p * (b - a) / (p - q)) by (apply Rmult_le_pos; [apply Rmult_le_pos; lra|left; apply Rinv_0_lt_compat; lra]).
  assert (P2 : 0 < (- q) * (b - a) / (p - q)) by (apply Rmult_lt_0_compat; [apply Rmult_lt_0_compat; lra|apply Rinv_0_lt_compat; lra]).
  split; [split; [lra|field; lra]|split; [lra|]]. intros P3.
  assert (0 < p * (b - a) / (p - q)) by (apply Rmult_lt_0_compat; [apply Rmult_lt_0_compat; lra|apply Rinv_0_lt_compat; lra]). lra.
Qed.

(* the crossings and extremes of the waves *)
Lemma found m x z : findcross m x 0 (Some "tw"%string) = Ok z -> x <> [] -> (3 <= List.length z)%nat ->
  exists k tc, findtc m x 0 (Some "tw"%string) = Ok (tc, z) /\ (1 <= k)%nat /\ List.length z = (2 * k + 2)%nat /\ List.length tc = (2 * k + 1)%nat /\
    increasing z /\
    (forall i, (i <= k)%nat -> DownCross x 0 (nth (2 * i) z 0%nat) /\ UpCross x 0 (nth (2 * i + 1) z 0%nat)) /\
    (forall i, (i <= k)%nat -> LowestIn x (nth (2 * i) z 0%nat) (nth (2 * i + 1) z 0%nat) (nth (2 * i) tc 0%nat)) /\
    (forall i, (i < k)%nat -> HighestIn x (nth (2 * i + 1) z 0%nat) (nth (2 * i + 2) z 0%nat) (nth (2 * i + 1) tc 0%nat)).
Proof.
  intros E N L. destruct (findcross_wave_kind m x 0%Z TW N) as [full [l [pre [suf [F [E' [Q [A [_ [_ [O _]]]]]]]]]]].
  change (wave_name TW) with "tw"%string in E'. rewrite E in E'. injection E' as <-.
  assert (Z0 : z <> []) by (intros ->; cbn in L; lia). specialize (O Z0). cbn [wave_odd] in O.
  destruct (findcross_exact m x 0%Z N) as [full' [F' [I _]]]. rewrite F in F'. injection F' as <-.
  assert (IZ : increasing z).
  { intros a b [H1 H2]. specialize (I (List.length pre + a)%nat (List.length pre + b)%nat). rewrite Q, !app_length in I. specialize (I ltac:(lia)).
    rewrite !app_nth2_plus, !app_nth1 in I by lia. exact I. }
  assert (AZ : alternating (DownCross x 0) (UpCross x 0) z).
  { clear -A. revert A. unfold wave_first, wave_second. cbn [wave_starts_down]. generalize (DownCross x 0), (UpCross x 0). intros P Q. revert P Q.
    induction z as [|a z IH]; intros P Q A; [exact I|]. destruct A as [A1 A2]. split; [exact A1|]. apply IH. exact A2. }
  destruct (findtc_wave m x 0%Z TW z E L) as [tc [T [LT S]]]. change (wave_name TW) with "tw"%string in T.
  assert (EV : Nat.even (List.length z) = true) by (rewrite <- Nat.negb_odd, O; reflexivity). apply Nat.even_spec in EV. destruct EV as [h H].
  exists (h - 1)%nat, tc. split; [exact T|]. split; [lia|]. split; [lia|]. split; [lia|]. split; [exact IZ|].
  assert (D : forall i, (i < h)%nat -> DownCross x 0 (nth (2 * i) z 0%nat) /\ UpCross x 0 (nth (2 * i + 1) z 0%nat)).
  { clear -AZ H. intros i. revert h z AZ H. induction i as [|i IH]; intros h z AZ H HI.
    - destruct z as [|a [|b z]]; [cbn in H|cbn in H|]; try lia. destruct AZ as [A1 [A2 _]]. split; [exact A1|exact A2].
    - destruct z as [|a [|b z]]; [cbn in H; lia|cbn in H; lia|]. destruct AZ as [_ [_ AZ]].
      replace (2 * S i)%nat with (S (S (2 * i))) by lia. cbn [nth Nat.add]. apply (IH (h - 1)%nat z AZ); cbn in H; lia. }
  split; [intros i HI; apply D; lia|]. split.
  - intros i HI. destruct (S (2 * i)%nat ltac:(lia)) as [S1 _]. replace (2 * i + 1)%nat with (Datatypes.S (2 * i)) by lia. apply S1, D. lia.
  - intros i HI. destruct (S (2 * i + 1)%nat ltac:(lia)) as [_ S2]. replace (2 * i + 2)%nat with (Datatypes.S (2 * i + 1)) by lia. apply S2, D. lia.
Qed.
