(* Simulation by circulant embedding: the embedded vector, the truncation, the covariances. *)
From Coq Require Import Reals List ZArith Lra Lia Bool.
From Coquelicot Require Import Complex.
From Verif Require Import Base PolyModel KdeModel SpectModel SpectProofs7 DftModel DftProofs CovModel ArSpec ArProofs2 CsimModel CsimSpec CsimProofs.
Import ListNotations.
Local Open Scope R_scope.

(* ---- the embedded vector ---- *)
Lemma pow2_bound n : (n <= pow2_above n)%nat /\ (1 <= pow2_above n)%nat.
Proof. unfold pow2_above. split; [|pose proof (Nat.pow_nonzero 2 (Nat.log2_up n)); lia]. destruct n as [|[|n]]; [lia|cbn; lia|]. pose proof (Nat.log2_up_spec (S (S n)) ltac:(lia)). lia. Qed.
Lemma padded_nth (a b : list R) z k N s : List.length a = k -> z = (N - k - List.length b)%nat -> (k + List.length b <= N)%nat -> (s < N)%nat -> nth s (a ++ repeat 0 z ++ b) 0 = nth s a 0 + (if (N - List.length b <=? s)%nat then nth (s - (N - List.length b)) b 0 else 0).
Proof.
  intros A Z L S. destruct (le_lt_dec k s) as [G|G].
  - rewrite app_nth2 by lia. rewrite (nth_overflow a) by lia. rewrite A. destruct (Nat.leb_spec (N - List.length b) s) as [H|H].
    + rewrite app_nth2 by (rewrite repeat_length; lia). rewrite repeat_length. rewrite Rplus_0_l. f_equal. lia.
    + rewrite app_nth1 by (rewrite repeat_length; lia). rewrite nth_repeat. ring.
  - rewrite app_nth1 by lia. destruct (Nat.leb_spec (N - List.length b) s) as [H|H]; [|ring]. assert (List.length b = 0%nat \/ s < N - List.length b)%nat as [Q|Q] by lia; [lia|lia].
Qed.
Lemma rev_skip_nth i acf j : (i + j < List.length acf)%nat -> nth (List.length acf - i - 1 - j) (rev (skipn i acf)) 0 = nth (i + j) acf 0.
Proof.
  intros H. rewrite rev_nth by (rewrite skipn_length; lia). rewrite skipn_length. replace (List.length acf - i - S (List.length acf - i - 1 - j))%nat with j by lia. rewrite <- (firstn_skipn i acf) at 2. rewrite app_nth2 by (rewrite firstn_length; lia). rewrite firstn_length. f_equal. lia.
Qed.
(* delta = 0, or 1 if the last value is negligible *)
Definition delta (eps : R) (acf : list R) : nat := if Rlt_dec eps (Rabs (last acf 0)) then 0%nat else 1%nat.
Lemma embed_nth eps acf ns : (2 <= List.length acf)%nat -> let N := fst (embed eps acf ns) in let c := snd (embed eps acf ns) in let n := List.length acf in
  (2 * ns <= N)%nat /\ (2 * n - 1 <= N + delta eps acf)%nat /\ (1 <= N)%nat /\ N = pow2_above (Nat.max (2 * n - 1 - delta eps acf) (2 * ns)) /\
  forall k, (k < N)%nat -> nth k c 0 = nth k acf 0 + match k with O => 0 | _ => nth (N - k + delta eps acf) acf 0 end.
Proof.
  intros L. set (n := List.length acf) in *. unfold embed, delta. fold n. destruct (Rlt_dec eps (Rabs (last acf 0))) as [G|G]; cbn [fst snd]; cbv zeta.
  - set (N := pow2_above (Nat.max (2 * n - 1) (2 * ns))). destruct (pow2_bound (Nat.max (2 * n - 1) (2 * ns))) as [B1 B2]. fold N in B1, B2. split; [lia|]. split; [lia|]. split; [lia|]. split; [unfold N; f_equal; lia|]. intros k K. rewrite (padded_nth acf (rev (skipn 1 acf)) (N - (2 * n - 1)) n N k eq_refl) by (rewrite ?rev_length, ?skipn_length; fold n; lia). f_equal. rewrite rev_length, skipn_length. fold n. destruct (Nat.leb_spec (N - (n - 1)) k) as [H|H].
    + destruct k as [|k]; [lia|]. replace (N - S k + 0)%nat with (1 + (N - S k - 1))%nat by lia. rewrite <- (rev_skip_nth 1 acf (N - S k - 1)) by (fold n; lia). fold n. f_equal. lia.
    + destruct k as [|k]; [reflexivity|]. symmetry. apply nth_overflow. fold n. lia.
  - set (N := pow2_above (Nat.max (2 * n - 2) (2 * ns))). destruct (pow2_bound (Nat.max (2 * n - 2) (2 * ns))) as [B1 B2]. fold N in B1, B2. split; [lia|]. split; [lia|]. split; [lia|]. split; [unfold N; f_equal; lia|]. intros k K. rewrite (padded_nth acf (rev (skipn 2 acf)) (N - (2 * n - 2)) n N k eq_refl) by (rewrite ?rev_length, ?skipn_length; fold n; lia). f_equal. rewrite rev_length, skipn_length. fold n. destruct (Nat.leb_spec (N - (n - 2)) k) as [H|H].
    + destruct k as [|k]; [lia|]. replace (N - S k + 1)%nat with (2 + (N - S k - 1))%nat by lia. rewrite <- (rev_skip_nth 2 acf (N - S k - 1)) by (fold n; lia). fold n. f_equal. lia.
    + destruct k as [|k]; [reflexivity|]. symmetry. apply nth_overflow. fold n. lia.
Qed.
(* the covariance function that the embedding represents *)
Definition target (eps : R) (acf : list R) (k : nat) : R := if Rlt_dec eps (Rabs (last acf 0)) then nth k acf 0 else averaged acf k.
Lemma spectrum_power N c : spectrum N c = map (power N (fun k => nth k c 0)) (seq 0 N).
Proof. unfold spectrum. apply map_ext. intros m. rewrite fft_re. apply sum_ext. intros k _. unfold padded, at_R. cbn [fst snd RtoC]. rewrite (ang_comm N k m). ring. Qed.
Lemma spectrum_length N c : List.length (spectrum N c) = N. Proof. unfold spectrum. rewrite map_length, seq_length. reflexivity. Qed.
Lemma map_seq_nth (f : nat -> R) N k : (k < N)%nat -> nth k (map f (seq 0 N)) 0 = f k.
Proof. intros H. rewrite nth_indep with (d' := f 0%nat) by (rewrite map_length, seq_length; exact H). rewrite map_nth, seq_nth by exact H. reflexivity. Qed.
Lemma spectrum_nth N c m : (m < N)%nat -> nth m (spectrum N c) 0 = power N (fun k => nth k c 0) m.
Proof. intros H. rewrite spectrum_power. apply map_seq_nth, H. Qed.
Lemma target_ext eps acf N m : N = N -> eigenvalue N (target eps acf) m = nth 0 acf 0 + sum_to (N - 1) (fun k => (nth (S k) acf 0 + nth (S k + delta eps acf) acf 0) * cos (ang N m (S k))).
Proof.
  intros _. unfold eigenvalue. unfold target at 1. f_equal; [destruct (Rlt_dec eps (Rabs (last acf 0))); reflexivity|]. rewrite <- sum_scal. apply sum_ext. intros k _. unfold target, delta, averaged. fold (ang N m (S k)). destruct (Rlt_dec eps (Rabs (last acf 0))); [rewrite Nat.add_0_r; ring|]. rewrite Nat.add_1_r. field.
Qed.
Lemma power_embed eps acf ns : (2 <= List.length acf)%nat -> let N := fst (embed eps acf ns) in let c := snd (embed eps acf ns) in forall m, (m < N)%nat -> power N (fun k => nth k c 0) m = eigenvalue N (target eps acf) m.
Proof.
  intros L N c m M. destruct (embed_nth eps acf ns L) as [B1 [B2 [B3 [_ E]]]]. fold N c in B1, B2, B3, E. rewrite target_ext by reflexivity. unfold power. rewrite sum_first by lia. rewrite E by lia. cbv iota. rewrite Rplus_0_r. replace (ang N m 0) with 0 by (unfold ang; rewrite Nat.mul_0_r; cbn; unfold Rdiv; ring). rewrite cos_0, Rmult_1_r. f_equal.
  rewrite (sum_ext _ _ (fun k => nth (S k) acf 0 * cos (ang N m (S k)) + nth (N - S k + delta eps acf) acf 0 * cos (ang N m (S k)))) by (intros k K; rewrite E by lia; cbv iota; ring). rewrite sum_plus. rewrite (sum_rev (N - 1) (fun k => nth (N - S k + delta eps acf) acf 0 * cos (ang N m (S k)))). rewrite <- sum_plus. apply sum_ext. intros k K. replace (S (N - 1 - 1 - k)) with (N - S k)%nat by lia. replace (N - (N - S k))%nat with (S k) by lia. rewrite (ang_comm N m (N - S k)). destruct (ang_refl N (S k) m ltac:(lia) ltac:(lia)) as [-> _]. rewrite (ang_comm N (S k) m). ring.
Qed.
Lemma embed_target eps acf ns l : (2 <= List.length acf)%nat -> (l < ns)%nat -> let N := fst (embed eps acf ns) in let c := snd (embed eps acf ns) in (if (l =? 0)%nat then nth 0 c 0 else (nth l c 0 + nth (N - l) c 0) / 2) = target eps acf l.
Proof.
  intros L LN N c. destruct (embed_nth eps acf ns L) as [B1 [B2 [B3 [_ E]]]]. fold N c in B1, B2, B3, E. destruct (Nat.eqb_spec l 0) as [->|NZ].
  - rewrite E by lia. unfold target. destruct (Rlt_dec eps (Rabs (last acf 0))); cbn [averaged]; ring.
  - rewrite !E by lia. destruct l as [|l]; [lia|]. destruct (N - S l)%nat as [|q] eqn:Q; [lia|]. rewrite <- Q. replace (N - (N - S l))%nat with (S l) by lia. unfold target, delta, averaged in *. destruct (Rlt_dec eps (Rabs (last acf 0))) as [G|G].
    + rewrite (nth_overflow acf 0 (n := (N - S l + 0)%nat)), (nth_overflow acf 0 (n := (N - S l)%nat)) by lia. rewrite Nat.add_0_r. field.
    + rewrite (nth_overflow acf 0 (n := (N - S l + 1)%nat)), (nth_overflow acf 0 (n := (N - S l)%nat)) by lia. rewrite Nat.add_1_r. field.
Qed.
(* ---- the truncation ---- *)
Definition sym (s : list R) : Prop := forall m, (0 < m < List.length s)%nat -> nth (List.length s - m) s 0 = nth m s 0.
Lemma argmax_half s : s <> [] -> sym s -> (2 * argmaxR s <= List.length s)%nat.
Proof.
  intros NE S. destruct (argmaxR_spec s NE) as [L [M F]]. set (i := argmaxR s) in *. destruct (le_lt_dec (2 * i) (List.length s)) as [|G]; [assumption|exfalso]. pose proof (F (List.length s - i)%nat ltac:(lia)) as Q. unfold at_R in Q. rewrite S in Q by lia. lra.
Qed.
Lemma neg_spec v : neg v = true <-> v < 0. Proof. unfold neg. destruct (Rlt_dec v 0); split; intros; try lra; try discriminate; reflexivity. Qed.
Lemma no_negative_length s : List.length (no_negative s) = List.length s.
Proof. unfold no_negative. destruct (existsb neg s); [|reflexivity]. destruct (find _ _); rewrite map_length, ?seq_length; reflexivity. Qed.
Lemma no_negative_facts s : s <> [] -> sym s -> 0 < nth (argmaxR s) s 0 ->
  sym (no_negative s) /\ (forall m, (m < List.length s)%nat -> 0 <= nth m (no_negative s) 0) /\ nth (argmaxR s) (no_negative s) 0 = nth (argmaxR s) s 0 /\ ((forall m, (m < List.length s)%nat -> 0 <= nth m s 0) -> no_negative s = s).
Proof.
  intros NE S P. destruct (argmaxR_spec s NE) as [L [M F]]. set (N := List.length s) in *. unfold no_negative. fold N. set (i := argmaxR s) in *. destruct (existsb neg s) eqn:EX.
  - set (s' := map (fun v => if neg v then 0 else v) s). assert (N' : forall m, nth m s' 0 = if neg (nth m s 0) then 0 else nth m s 0). { intros m. unfold s'. destruct (le_lt_dec N m) as [G|G]; [rewrite !nth_overflow by (rewrite ?map_length; exact G); destruct (neg 0); reflexivity|]. rewrite nth_indep with (d' := (fun v => if neg v then 0 else v) 0) by (rewrite map_length; exact G). rewrite (map_nth (fun v => if neg v then 0 else v)). reflexivity. }
    assert (S' : forall m, (0 < m < N)%nat -> nth (N - m) s' 0 = nth m s' 0) by (intros m Hm; rewrite !N', S by exact Hm; reflexivity). assert (P' : forall m, 0 <= nth m s' 0) by (intros m; rewrite N'; destruct (neg (nth m s 0)) eqn:E; [lra|]; destruct (Rlt_dec (nth m s 0) 0) as [G|G]; [apply neg_spec in G; congruence|lra]).
    assert (I' : nth i s' 0 = nth i s 0) by (rewrite N'; destruct (neg (nth i s 0)) eqn:E; [apply neg_spec in E; lra|reflexivity]).
    assert (LAST : (forall m, (m < N)%nat -> 0 <= nth m s 0) -> False). { intros H. apply existsb_exists in EX. destruct EX as [v [Iv Ev]]. apply neg_spec in Ev. apply In_nth with (d := 0) in Iv. destruct Iv as [m [Lm Em]]. pose proof (H m Lm). lra. }
    destruct (find _ _) as [i0|] eqn:FD.
    + apply find_some in FD. destruct FD as [I0 C0]. apply in_seq in I0. apply andb_true_iff in C0. destruct C0 as [C1 C2]. apply neg_spec in C1. apply Nat.ltb_lt in C2. unfold at_R in C1.
      assert (Z0 : nth i0 s' 0 = 0) by (rewrite N'; apply neg_spec in C1; rewrite C1; reflexivity).
      assert (NT : forall m, (m < N)%nat -> nth m (map (fun k => if (i0 <=? k)%nat && (k <? N - i0)%nat then 0 else at_R s' k) (seq 0 N)) 0 = if (i0 <=? m)%nat && (m <? N - i0)%nat then 0 else nth m s' 0) by (intros m Hm; rewrite map_seq_nth by exact Hm; reflexivity).
      split; [|split; [|split]].
      * intros m Hm. rewrite map_length, seq_length in *. rewrite !NT by lia. rewrite S' by exact Hm. destruct (Nat.leb_spec i0 m), (Nat.ltb_spec m (N - i0)), (Nat.leb_spec i0 (N - m)), (Nat.ltb_spec (N - m) (N - i0)); cbn [andb]; try reflexivity; try lia.
        1,2: first [assert (m = i0) by lia; subst m; rewrite Z0; reflexivity | assert (m = N - i0)%nat by lia; subst m; rewrite S' by lia; rewrite Z0; reflexivity].
      * intros m Hm. rewrite NT by exact Hm. destruct ((i0 <=? m)%nat && (m <? N - i0)%nat); [lra|apply P'].
      * rewrite NT by exact L. destruct (Nat.leb_spec i0 i); [lia|]. cbn [andb]. exact I'.
      * intros H. destruct (LAST H).
    + split; [intros m Hm; unfold s' in Hm |- *; rewrite map_length in *; fold s'; fold N in Hm |- *; apply S'; exact Hm|]. split; [intros m _; apply P'|]. split; [exact I'|]. intros H. destruct (LAST H).
  - split; [exact S|]. split; [|split; [reflexivity|reflexivity]]. intros m Hm. destruct (Rlt_dec (nth m s 0) 0) as [G|G]; [|lra]. exfalso. assert (X : existsb neg s = true) by (apply existsb_exists; exists (nth m s 0); split; [apply nth_In; exact Hm|apply neg_spec; exact G]). congruence.
Qed.
Lemma truncated_length s : List.length (truncated s) = List.length s. Proof. unfold truncated. rewrite map_length, seq_length. reflexivity. Qed.
Lemma truncated_facts s : s <> [] -> sym s -> 0 < nth (argmaxR s) s 0 ->
  sym (truncated s) /\ (forall m, (m < List.length s)%nat -> 0 <= nth m (truncated s) 0) /\
  ((forall m, (m < List.length s)%nat -> 0 <= nth m s 0) -> forall m, (m < List.length s)%nat -> nth m (truncated s) 0 = nth m s 0 \/ nth m (truncated s) 0 = 0 /\ nth m s 0 < nth (argmaxR s) s 0 * (1 / 100000)).
Proof.
  intros NE S P. destruct (argmaxR_spec s NE) as [L [M F]]. pose proof (argmax_half s NE S) as AH. destruct (no_negative_facts s NE S P) as [S1 [P1 [I1 E1]]]. set (N := List.length s) in *. set (s1 := no_negative s) in *. set (i := argmaxR s) in *.
  assert (L1 : List.length s1 = N) by apply no_negative_length.
  assert (NT : forall m, (m < N)%nat -> nth m (truncated s) 0 = if negb (i =? 0)%nat && (i <=? m)%nat && (m <? N - i)%nat && (if Rlt_dec (nth m s1 0) (nth i s 0 * (1 / 100000)) then true else false) then 0 else nth m s1 0) by (intros m Hm; unfold truncated; fold N i s1; rewrite map_seq_nth by exact Hm; unfold at_R; rewrite I1; reflexivity).
  split; [|split].
  - intros m Hm. rewrite truncated_length in *. fold N in Hm |- *. rewrite !NT by lia. assert (SM : nth (N - m) s1 0 = nth m s1 0) by (rewrite <- L1; apply S1; lia). rewrite SM. destruct (Rlt_dec (nth m s1 0) (nth i s 0 * (1 / 100000))) as [G|G]; [|rewrite !andb_false_r; reflexivity].
    destruct (Nat.eqb_spec i 0); cbn [negb andb]; [reflexivity|]. destruct (Nat.leb_spec i m), (Nat.ltb_spec m (N - i)), (Nat.leb_spec i (N - m)), (Nat.ltb_spec (N - m) (N - i)); cbn [andb]; try reflexivity; try lia.
    1,2: exfalso; first [assert (m = i) by lia; subst m; rewrite I1 in G; lra | assert (N - m = i)%nat by lia; replace (nth m s1 0) with (nth i s1 0) in G by (rewrite <- SM; f_equal; lia); rewrite I1 in G; lra].
  - intros m Hm. rewrite NT by exact Hm. destruct (negb (i =? 0)%nat && (i <=? m)%nat && (m <? N - i)%nat && _); [lra|apply P1; exact Hm].
  - intros H m Hm. rewrite NT by exact Hm. rewrite (E1 H) in *. destruct (Rlt_dec (nth m s 0) (nth i s 0 * (1 / 100000))) as [G|G]; [|rewrite andb_false_r; left; reflexivity]. destruct (negb (i =? 0)%nat && (i <=? m)%nat && (m <? N - i)%nat && true); [right; split; [reflexivity|exact G]|left; reflexivity].
Qed.
