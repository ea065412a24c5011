(* Stretched arrays, positions, multiples of pi. *)
From Coq Require Import List Arith ZArith Lia String DecimalString DecimalZ DecimalFacts Bool.
From Verif Require Import Base BcastModel BcastSpec BcastProofs.
Import ListNotations.

Section A.
Context {A : Type} (d0 : A).
Lemma flat_length : forall (f : nat -> list A) P m a, (forall i, (a <= i < a + m)%nat -> List.length (f i) = P) -> List.length (flat_map f (seq a m)) = (m * P)%nat.
Proof.
  intros f P. induction m as [|m IH]; intros a H; cbn [seq flat_map]; [reflexivity|]. rewrite app_length, (H a) by lia. rewrite (IH (S a)) by (intros i Hi; apply H; lia). lia.
Qed.
Lemma flat_nth : forall (f : nat -> list A) P m a i r, (forall i, (a <= i < a + m)%nat -> List.length (f i) = P) -> (i < m)%nat -> (r < P)%nat ->
  nth (i * P + r) (flat_map f (seq a m)) d0 = nth r (f (a + i)%nat) d0.
Proof.
  intros f P. induction m as [|m IH]; intros a i r H Hi Hr; [lia|]. cbn [seq flat_map]. destruct i as [|i].
  - cbn [Nat.mul Nat.add]. rewrite app_nth1 by (rewrite (H a) by lia; exact Hr). rewrite Nat.add_0_r. reflexivity.
  - rewrite app_nth2 by (rewrite (H a) by lia; lia). rewrite (H a) by lia. replace (S i * P + r - P)%nat with (i * P + r)%nat by lia.
    rewrite (IH (S a) i r) by (try lia; intros j Hj; apply H; lia). f_equal. f_equal. lia.
Qed.
Lemma nth_firstn_in : forall n (l : list A) r, (r < n)%nat -> nth r (firstn n l) d0 = nth r l d0.
Proof. induction n as [|n IH]; intros [|x l] [|r] H; cbn; try reflexivity; try lia. apply IH. lia. Qed.
Lemma nth_skip : forall n (l : list A) r, nth r (skipn n l) d0 = nth (n + r) l d0.
Proof. induction n as [|n IH]; intros [|x l] r; cbn; try reflexivity; [destruct r; reflexivity|apply IH]. Qed.
Definition clip (s idx : list nat) : list nat := map (fun p => if (fst p =? 1)%nat then 0%nat else snd p) (combine s idx).
Definition stretch (s t : list nat) : Prop := Forall2 (fun n m => n = m \/ n = 1%nat) s t.
Lemma place_bound : forall t idx, inside t idx -> (place t idx < size t)%nat.
Proof.
  induction t as [|m t IH]; intros idx H; inversion H; subst; cbn [place size fold_right]; [lia|]. fold (size t). match goal with K : Forall2 _ ?l t |- _ => specialize (IH l K) end. nia.
Qed.
Lemma expand_length : forall s t (d : list A), stretch s t -> List.length d = size s -> List.length (expand s t d) = size t.
Proof.
  intros s t d H. revert d. induction H as [|n m s t E H IH]; intros d L; cbn [expand]; [exact L|].
  cbn [size fold_right] in L. fold (size s) in L. cbn [size fold_right]. fold (size t). apply flat_length. intros i Hi. apply IH. rewrite firstn_length, skipn_length, L.
  destruct (Nat.eqb_spec n 1) as [->|N]; [lia|]. destruct E as [->|E]; [|contradiction]. cbn [Nat.add] in Hi. nia.
Qed.
Lemma clip_inside : forall s t idx, stretch s t -> inside t idx -> inside s (clip s idx).
Proof.
  intros s t idx H. revert idx. induction H as [|n m s t E H IH]; intros idx K; inversion K; subst; [constructor|].
  unfold clip. cbn [combine map fst snd]. constructor; [|apply IH; assumption]. destruct (Nat.eqb_spec n 1) as [->|N]; [lia|]. destruct E as [->|E]; [assumption|contradiction].
Qed.
Lemma expand_nth : forall s t (d : list A) idx, stretch s t -> List.length d = size s -> inside t idx -> nth (place t idx) (expand s t d) d0 = nth (place s (clip s idx)) d d0.
Proof.
  intros s t d idx H. revert d idx. induction H as [|n m s t E H IH]; intros d idx L K; [inversion K; reflexivity|].
  destruct idx as [|x l]; [inversion K|]. assert (x < m)%nat as Hi by (inversion K; assumption). assert (inside t l) as Hr by (inversion K; assumption).
  cbn [size fold_right] in L. fold (size s) in L. cbn [expand place]. unfold clip. cbn [combine map fst snd place]. fold (clip s l).
  assert (forall i, (0 <= i < 0 + m)%nat -> (((if (n =? 1)%nat then 0 else i) + 1) * size s <= List.length d)%nat) as B.
  { intros i Q. rewrite L. destruct (Nat.eqb_spec n 1) as [->|N]; [lia|]. destruct E as [->|E]; [|contradiction]. cbn [Nat.add] in Q. nia. }
  rewrite (flat_nth _ (size t)); [|intros i Q; apply expand_length; [exact H|rewrite firstn_length, skipn_length; specialize (B i Q); lia]|exact Hi|apply place_bound, Hr].
  cbn [Nat.add]. rewrite IH; [|rewrite firstn_length, skipn_length; specialize (B x ltac:(lia)); lia|exact Hr].
  rewrite nth_firstn_in by (apply place_bound, (clip_inside s t l H Hr)). rewrite nth_skip. reflexivity.
Qed.
Lemma size_ones : forall k s, size (repeat 1%nat k ++ s) = size s.
Proof. induction k as [|k IH]; intros s; cbn [repeat app size fold_right]; [reflexivity|]. fold (size (repeat 1%nat k ++ s)). rewrite IH. lia. Qed.
Lemma place_ones : forall k s idx, (k <= List.length idx)%nat -> place (repeat 1%nat k ++ s) (clip (repeat 1%nat k ++ s) idx) = place s (clip s (skipn k idx)).
Proof.
  induction k as [|k IH]; intros s [|i idx] L; cbn [repeat app skipn List.length] in *; try reflexivity; [lia|].
  unfold clip. cbn [combine map fst snd place Nat.eqb]. fold (clip (repeat 1%nat k ++ s) idx). exact (IH s idx ltac:(lia)).
Qed.
Lemma nth_ones : forall k i, (i < k)%nat -> nth i (repeat 1%nat k) 0%nat = 1%nat.
Proof. induction k as [|k IH]; intros [|i] H; cbn; try lia; try reflexivity. apply IH. lia. Qed.
Lemma fits_stretch : forall s t, fits s t -> stretch (repeat 1%nat (List.length t - List.length s) ++ s) t.
Proof.
  intros s t [L K]. cbn zeta in K.
  assert (forall (a b : list nat), List.length a = List.length b -> (forall i, (i < List.length a)%nat -> nth i a 0%nat = nth i b 0%nat \/ nth i a 0%nat = 1%nat) -> stretch a b) as Q.
  { induction a as [|x a IH]; intros [|y b] E H; try discriminate; [constructor|]. constructor; [exact (H 0%nat ltac:(cbn; lia))|]. apply IH; [cbn in E; lia|]. intros i Hi. exact (H (S i) ltac:(cbn; lia)). }
  apply Q; rewrite app_length, repeat_length; [lia|]. intros i Hi. destruct (le_lt_dec (List.length t - List.length s) i) as [G|G].
  - rewrite app_nth2 by (rewrite repeat_length; exact G). rewrite repeat_length. specialize (K (List.length t - 1 - i)%nat ltac:(lia)).
    replace (List.length s - 1 - (List.length t - 1 - i))%nat with (i - (List.length t - List.length s))%nat in K by lia. replace (List.length t - 1 - (List.length t - 1 - i))%nat with i in K by lia. exact K.
  - right. rewrite app_nth1 by (rewrite repeat_length; exact G). apply nth_ones. exact G.
Qed.
Lemma inside_length : forall t idx, inside t idx -> List.length idx = List.length t.
Proof. intros t idx I. induction I; cbn; congruence. Qed.
Lemma ravel_length : forall t (a : array A), well_formed a -> fits (shape_of a) t -> List.length (ravel_to t a) = size t.
Proof. intros t a W F. unfold ravel_to. apply expand_length; [apply fits_stretch, F|]. rewrite size_ones. exact W. Qed.
Lemma ravel_nth : forall t (a : array A) idx, well_formed a -> fits (shape_of a) t -> inside t idx -> nth (place t idx) (ravel_to t a) d0 = element d0 a idx.
Proof.
  intros t a idx W F I. assert (List.length idx = List.length t) as LI by (apply inside_length, I). unfold ravel_to. rewrite expand_nth; [|apply fits_stretch, F|rewrite size_ones; exact W|exact I].
  rewrite place_ones by lia. unfold element, own, clip. rewrite LI. reflexivity.
Qed.
Lemma zip3_length : forall (x y z : list A) n, List.length x = n -> List.length y = n -> List.length z = n -> List.length (zip3 x y z) = n.
Proof. induction x as [|a x IH]; intros [|b y] [|c z] [|n]; cbn; intros; try discriminate; [reflexivity|]. rewrite (IH y z n); lia. Qed.
Lemma zip3_nth : forall (x y z : list A) k, List.length x = List.length y -> List.length x = List.length z -> nth k (zip3 x y z) (d0, d0, d0) = (nth k x d0, nth k y d0, nth k z d0).
Proof. induction x as [|a x IH]; intros [|b y] [|c z] [|k]; cbn; intros; try discriminate; try reflexivity. apply IH; lia. Qed.
(* three arrays *)
Lemma flat_three : forall x y z : array A, well_formed x -> well_formed y -> well_formed z ->
  match common_shape [shape_of x; shape_of y; shape_of z] None with
  | Err e => args_flat [x; y; z] = Err e
  | Ok t => exists pos, args_flat [x; y; z] = Ok (pos, Some t) /\ List.length pos = size t /\
      forall idx, inside t idx -> nth (place t idx) pos (d0, d0, d0) = (element d0 x idx, element d0 y idx, element d0 z idx)
  end.
Proof.
  intros x y z WX WY WZ. unfold common_shape. cbn [bc_all]. assert (bc2 [] (shape_of x) = Ok (shape_of x)) as -> by (unfold bc2; cbn; rewrite rev_involutive; reflexivity).
  cbn [bind]. unfold args_flat. pose proof (bc_all_spec [shape_of y; shape_of z] (shape_of x)) as B.
  change (let* a := bc2 (shape_of x) (shape_of y) in let* a0 := bc2 a (shape_of z) in Ok a0) with (bc_all (shape_of x) [shape_of y; shape_of z]).
  destruct (bc_all (shape_of x) [shape_of y; shape_of z]) as [t|e]; cbn [bind]; [|reflexivity]. destruct B as [B _].
  pose proof (B (shape_of x) ltac:(left; reflexivity)) as FX. pose proof (B (shape_of y) ltac:(right; left; reflexivity)) as FY. pose proof (B (shape_of z) ltac:(right; right; left; reflexivity)) as FZ.
  pose proof (ravel_length t x WX FX) as LX. pose proof (ravel_length t y WY FY) as LY. pose proof (ravel_length t z WZ FZ) as LZ.
  eexists. split; [reflexivity|]. split; [apply zip3_length; assumption|]. intros idx I. rewrite zip3_nth by congruence. rewrite !ravel_nth by assumption. reflexivity.
Qed.
(* every row is the row of some indices *)
Lemma place_onto : forall t k, (k < size t)%nat -> exists idx, inside t idx /\ place t idx = k.
Proof.
  induction t as [|m t IH]; intros k H; cbn [size fold_right] in H; [exists []; split; [constructor|cbn; lia]|]. fold (size t) in *.
  assert (size t <> 0)%nat as N by (intros E; rewrite E in H; lia). destruct (IH (k mod size t)%nat (Nat.mod_upper_bound k _ N)) as (idx & I & E).
  exists ((k / size t)%nat :: idx). split.
  - constructor; [apply Nat.div_lt_upper_bound; [exact N|lia]|exact I].
  - cbn [place]. rewrite E. rewrite (Nat.div_mod k (size t) N) at 3. lia.
Qed.
(* one array *)
Lemma rows3_nth : forall n (d : list A), List.length d = (n * 3)%nat -> List.length (rows3 d) = n /\ forall k, (k < n)%nat -> nth k (rows3 d) (d0, d0, d0) = (nth (3 * k) d d0, nth (3 * k + 1) d d0, nth (3 * k + 2) d d0).
Proof.
  induction n as [|n IH]; intros d L.
  - destruct d; [|discriminate]. split; [reflexivity|intros k H; lia].
  - destruct d as [|a [|b [|c d]]]; try (cbn in L; lia). cbn in L. destruct (IH d ltac:(lia)) as [I1 I2]. split; [cbn; rewrite I1; reflexivity|].
    intros [|k] H; [reflexivity|]. cbn [rows3]. change (nth (S k) ((a, b, c) :: rows3 d) (d0, d0, d0)) with (nth k (rows3 d) (d0, d0, d0)). rewrite I2 by lia.
    replace (3 * S k)%nat with (S (S (S (3 * k)))) by lia. reflexivity.
Qed.
Lemma flat_one : forall p : array A, well_formed p ->
  (forall n, shape_of p = [n; 3%nat] -> exists pos, args_flat [p] = Ok (pos, None) /\ List.length pos = n /\
     forall k, (k < n)%nat -> nth k pos (d0, d0, d0) = (nth (3 * k) (data_of p) d0, nth (3 * k + 1) (data_of p) d0, nth (3 * k + 2) (data_of p) d0)) /\
  (forall a b c, p = Arr [3%nat] [a; b; c] -> args_flat [p] = Ok ([(a, b, c)], None)) /\
  ((forall n, shape_of p <> [n; 3%nat]) -> shape_of p <> [3%nat] -> args_flat [p] = Err ValueError).
Proof.
  intros [s d] W. unfold well_formed in W. cbn [shape_of data_of] in *. split; [|split].
  - intros n ->. cbn [size fold_right] in W. destruct (rows3_nth n d ltac:(lia)) as [R1 R2]. exists (rows3 d). split; [reflexivity|]. split; assumption.
  - intros a b c E. injection E as -> ->. reflexivity.
  - intros N M. unfold args_flat. cbn [shape_of]. destruct s as [|x [|y [|z s]]]; cbn [atleast_2d]; try reflexivity.
    + destruct (Nat.eqb_spec x 3) as [->|]; [contradiction|reflexivity].
    + destruct (Nat.eqb_spec y 3) as [->|]; [exfalso; exact (N x eq_refl)|reflexivity].
Qed.
Lemma flat_number : forall args : list (array A), List.length args <> 1%nat -> List.length args <> 3%nat -> args_flat args = Err ValueError.
Proof. intros [|a [|b [|c [|d l]]]] H K; cbn in *; try reflexivity; lia. Qed.
End A.

(* ---- multiples of pi ---- *)
Local Open Scope string_scope.
Lemma decimal_reads : forall z, numeral (decimal z) z.
Proof. intros z. unfold numeral, decimal. rewrite NilZero.isi; [cbn; rewrite DecimalZ.of_to; reflexivity| |]; intros E; pose proof (DecimalZ.of_to z) as H; rewrite E in H; cbn in H; subst z; discriminate. Qed.
Lemma pi_fraction : forall num den other nmax dmax, (0 < den < dmax)%Z -> (num < nmax)%Z -> num <> 0%Z -> pi_text (num2pistr num den other nmax dmax) num den.
Proof.
  intros num den other nmax dmax [D1 D2] N1 N2. unfold num2pistr. rewrite (proj2 (Z.ltb_lt den dmax) D2), (proj2 (Z.ltb_lt num nmax) N1), (proj2 (Z.eqb_neq num 0) N2). cbn [andb negb].
  exists (numerator_text num), (denominator_text den). split; [reflexivity|]. split.
  - unfold numerator_text, factor_text. destruct (Z.eqb_spec (Z.abs num) 1) as [E|E]; [|right; right; apply decimal_reads]. destruct (Z.eqb_spec num (-1)) as [->|F]; [right; left; split; reflexivity|left; split; [reflexivity|lia]].
  - unfold denominator_text, divisor_text. destruct (Z.eqb_spec (Z.abs den) 1) as [E|E]; [left; split; [reflexivity|lia]|]. right. exists (decimal den). split; [reflexivity|apply decimal_reads].
Qed.
Lemma pi_other : forall num den other nmax dmax, (dmax <= den)%Z \/ (nmax <= num)%Z \/ num = 0%Z -> num2pistr num den other nmax dmax = other.
Proof.
  intros num den other nmax dmax H. unfold num2pistr. destruct (Z.ltb_spec den dmax), (Z.ltb_spec num nmax), (Z.eqb_spec num 0); cbn [andb negb]; try reflexivity. lia.
Qed.
Lemma pi_sign : ~ (forall num den other, (0 < den)%Z -> (10 <= Z.abs num)%Z -> num2pistr num den other 10 10 = other).
Proof. intros H. specialize (H (-25)%Z 1%Z "-78.5" ltac:(lia) ltac:(lia)). discriminate. Qed.
(* ---- cases ---- *)
Lemma shapes_case : common_shape [[4; 1]; []; [1; 5]]%nat (Some [3; 4; 1]%nat) = Ok [3; 4; 5]%nat /\ common_shape [[4]; [5]]%nat None = Err ValueError /\ common_shape [[0]; [1]; []]%nat None = Ok [0]%nat.
Proof. repeat split; reflexivity. Qed.
Lemma flat_case : args_flat [Arr [3%nat] [1%Z; 2%Z; 3%Z]; Arr [] [2%Z]; Arr [1%nat] [3%Z]] = Ok ([(1, 2, 3); (2, 2, 3); (3, 2, 3)]%Z, Some [3%nat]) /\ args_flat [Arr [2; 1]%nat [1%Z; 2%Z]; Arr [2]%nat [5%Z; 6%Z]; Arr [] [9%Z]] = Ok ([(1, 5, 9); (1, 6, 9); (2, 5, 9); (2, 6, 9)]%Z, Some [2; 2]%nat).
Proof. split; reflexivity. Qed.
Lemma pi_case : num2pistr 3 4 "" 10 10 = "3\pi/4" /\ num2pistr (-1) 4 "" 10 10 = "-\pi/4" /\ num2pistr (-1) 1 "" 10 10 = "-\pi" /\ num2pistr (-25) 1 "-78.5" 10 10 = "-25\pi" /\ num2pistr 25 1 "78.5" 10 10 = "78.5".
Proof. repeat split; reflexivity. Qed.
