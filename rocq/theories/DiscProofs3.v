(* The whole discretisation. *)
From Coq Require Import Reals List ZArith Lra Lia Bool String.
From Verif Require Import Base FilterModel GridModel KdeModel ProcModel DiscModel DiscSpec DiscProofs DiscProofs2.
Import ListNotations.
Local Open Scope R_scope.

Lemma linear_method f tiny a b tol n method : prefix "a" method = false -> a < b -> 0 < tiny -> 0 <= tol -> (2 <= n)%Z ->
  let m := Z.to_nat (n - 1) in
  exists K errs, discretize f tiny a b tol n method = Ok (grid a b (2 ^ K * m), map f (grid a b (2 ^ K * m))) /\ errs 0%nat = 10000 /\
   (forall k, (k < K)%nat -> middle_error f tiny tol a b (2 ^ k * m) (errs (S k)) /\ ~ linear_stop tol m errs k) /\ linear_stop tol m errs K.
Proof.
  intros PM AB T P N m. unfold discretize. rewrite PM. unfold discretize_linear. replace n with (Z.of_nat m + 1)%Z by (unfold m; lia). rewrite linspace_grid by (unfold m; lia). cbn [bind].
  destruct (linear_run f tiny tol a b AB T P 63 m 10000 0%nat ltac:(unfold m; lia)) as [K [errs [_ [E0 [ER [H1 H2]]]]]].
  { assert (H : (2 ^ 20 <= 2 ^ Z.of_nat 63)%Z) by (vm_compute; discriminate). assert (1 <= Z.of_nat m)%Z by (unfold m; lia). nia. }
  exists K, errs. split; [exact ER|]. split; [exact E0|]. split; [exact H1|exact H2].
Qed.
Lemma middle_unique f tiny tol a b m e e' : middle_error f tiny tol a b m e -> middle_error f tiny tol a b m e' -> e = e'.
Proof. intros [A [i [I ->]]] [B [j [J ->]]]. apply Rle_antisym; [apply B; exact I|apply A; exact J]. Qed.
Lemma middle_affine tiny tol a b m p q : a < b -> (1 <= m)%nat -> middle_error (fun t => p + q * t) tiny tol a b m 0.
Proof.
  intros AB M. unfold middle_error. cbv zeta. assert (0 < INR m) by (apply lt_0_INR; lia). set (h := (b - a) / INR m). assert (0 < h) by (apply Rdiv_lt_0_compat; lra).
  assert (D : forall i, deviation tiny tol (chord (fun t => p + q * t) (a + INR i * h) (a + INR (S i) * h) (a + (INR i + / 2) * h)) (p + q * (a + (INR i + / 2) * h)) = 0).
  { intros i. replace (chord _ _ _ _) with (p + q * (a + (INR i + / 2) * h)); [apply deviation_refl|]. unfold chord. rewrite S_INR. field. nra. }
  split; [intros i I; rewrite D; lra|]. exists 0%nat. split; [lia|]. rewrite D. reflexivity.
Qed.
Lemma linear_affine p q tiny a b tol n method : prefix "a" method = false -> a < b -> 0 < tiny -> 0 <= tol < 10000 -> (2 <= n < 2 ^ 20)%Z ->
  let x := grid a b (2 * Z.to_nat (n - 1)) in discretize (fun t => p + q * t) tiny a b tol n method = Ok (x, map (fun t => p + q * t) x).
Proof.
  intros PM AB T P N x. destruct (linear_method (fun t => p + q * t) tiny a b tol n method PM AB T ltac:(lra) ltac:(lia)) as [K [errs [-> [E0 [H1 H2]]]]].
  set (m := Z.to_nat (n - 1)) in *. assert (K = 1%nat); [|subst K; reflexivity]. destruct K as [|[|K]]; [|reflexivity|].
  - exfalso. destruct H2 as [H2|[H2|H2]]; [cbn in H2; lia|lra|]. replace (2 ^ 0 * m)%nat with m in H2 by (cbn; lia). unfold m in H2. lia.
  - exfalso. destruct (H1 0%nat ltac:(lia)) as [A _]. destruct (H1 1%nat ltac:(lia)) as [_ B]. apply B. right. left. rewrite (middle_unique _ _ _ _ _ _ _ _ A (middle_affine tiny tol a b (2 ^ 0 * m) p q AB ltac:(cbn; unfold m; lia))). lra.
Qed.
Lemma linear_one f tiny a b tol method : prefix "a" method = false -> 0 <= tol -> 0 < tiny -> discretize f tiny a b tol 1 method = Ok ([a], [f a]).
Proof.
  intros PM P T. unfold discretize. rewrite PM. unfold discretize_linear. assert (L1 : linspaceZ a b 1 = Ok [a]) by (unfold linspaceZ; change (1 <? 0)%Z with false; change (Z.to_nat 1) with 1%nat; unfold linspace; cbn [seq map INR]; rewrite Rmult_0_l, Rplus_0_r; reflexivity). rewrite L1. cbn [bind map].
  change 64%nat with (S 63). cbn [linear_loop]. destruct ((0 <? 5)%nat && gtb 10000 tol && (1 <? 2 ^ 20)%Z)%bool; [|reflexivity].
  change (2 * (1 - 1) + 1)%Z with 1%Z. cbv zeta. rewrite L1. cbn [bind map combine interp amax maxR fold_left fst snd]. change 63%nat with (S 62). cbn [linear_loop].
  replace (gtb _ tol) with false; [rewrite andb_false_r; reflexivity|]. symmetry. unfold gtb. destruct (Rlt_dec tol _) as [L|_]; [|reflexivity]. exfalso. replace (f a - f a) with 0 in L by ring. rewrite Rabs_R0 in L. unfold Rdiv in L. rewrite Rmult_0_l, Rmult_0_r in L. lra.
Qed.
Lemma linear_none f tiny a b tol n method : prefix "a" method = false -> tol < 10000 -> (n <= 0)%Z -> discretize f tiny a b tol n method = Err ValueError.
Proof.
  intros PM P N. unfold discretize. rewrite PM. unfold discretize_linear, linspaceZ. destruct (Z.ltb_spec n 0) as [C|C]; [reflexivity|]. replace n with 0%Z by lia. cbn [bind]. change 64%nat with (S 63). cbn [linear_loop].
  unfold gtb. destruct (Rlt_dec tol 10000); [|lra]. reflexivity.
Qed.

Definition halted (tol : R) (errs : nat -> R) (tries k : nat) : Prop := (5 <= tries + stalls tol errs k)%nat \/ errs k <= tol.
Lemma adaptive_run f tiny tol : 0 < tiny -> 0 <= tol -> forall rounds x e err tries, Inv f tol x (map f x) e err ->
  exists K X marks errs, (K <= rounds)%nat /\ X 0%nat = x /\ marks 0%nat = marks_of tol x e /\ errs 0%nat = err /\
    adaptive_loop rounds f tiny tol x (map f x) e err tries = Ok (X K, map f (X K)) /\ (forall k, (k <= K)%nat -> increasing (X k)) /\
    (forall k, (k < K)%nat -> round f tiny tol (X k) (marks k) (X (S k)) (marks (S k)) (errs (S k)) /\ ~ halted tol errs tries k) /\ (K = rounds \/ halted tol errs tries K).
Proof.
  intros T P. induction rounds as [|rounds IH]; intros x e err tries HI.
  - exists 0%nat, (fun _ => x), (fun _ => marks_of tol x e), (fun _ => err). split; [lia|]. do 4 (split; [reflexivity|]). split; [intros; apply HI|]. split; [intros k K; lia|]. left. reflexivity.
  - cbn [adaptive_loop]. destruct ((tries <? 5)%nat && gtb err tol)%bool eqn:C.
    + apply andb_true_iff in C. destruct C as [C1 C2]. apply Nat.ltb_lt in C1. unfold gtb in C2. destruct (Rlt_dec tol err) as [C2'|]; [|discriminate]. clear C2.
      destruct (one_round f tiny tol x e err T P C2' HI) as [ys [err' [x' [e' [E1 [E2 [E3 [E4 [E5 [HI' RD]]]]]]]]]].
      cbv zeta. rewrite E1. cbn [bind]. rewrite E2. cbn [bind]. rewrite E3, E4, E5.
      destruct (IH x' e' err' (tries + (if leb (Rabs (err' - err)) (tol / 2) then 1 else 0))%nat HI') as [K [X [marks [errs [HK [X0 [M0 [R0 [ER [IN [H1 H2]]]]]]]]]]].
      exists (S K), (fun k => match k with O => x | S k' => X k' end), (fun k => match k with O => marks_of tol x e | S k' => marks k' end), (fun k => match k with O => err | S k' => errs k' end).
      assert (ST : forall k, halted tol errs (tries + (if leb (Rabs (err' - err)) (tol / 2) then 1 else 0)) k <-> halted tol (fun k => match k with O => err | S k' => errs k' end) tries (S k)).
      { intros k. unfold halted. cbn [stalls]. rewrite R0. unfold leb. replace (stalls tol (fun j : nat => errs j) k) with (stalls tol errs k) by reflexivity. rewrite Nat.add_assoc. destruct (Rle_dec (Rabs (err' - err)) (tol / 2)); reflexivity. }
      split; [lia|]. split; [reflexivity|]. split; [reflexivity|]. split; [reflexivity|]. split; [exact ER|]. split; [|split].
      * intros [|k] Hk; [apply HI|]. apply IN. lia.
      * intros [|k] Hk.
        -- split; [rewrite X0, M0, R0; exact RD|]. intros [Q|Q]; [cbn in Q; lia|lra].
        -- destruct (H1 k ltac:(lia)) as [A B]. split; [exact A|]. intros Q. apply B. apply ST. exact Q.
      * destruct H2 as [->|H2]; [left; reflexivity|right; apply ST; exact H2].
    + exists 0%nat, (fun _ => x), (fun _ => marks_of tol x e), (fun _ => err). split; [lia|]. split; [reflexivity|]. split; [reflexivity|]. split; [reflexivity|]. split; [reflexivity|]. split; [intros k _; apply HI|]. split; [intros k Hk; lia|].
      right. unfold halted. cbn [stalls]. rewrite Nat.add_0_r. apply andb_false_iff in C. destruct C as [C|C]; [left; apply Nat.ltb_ge in C; exact C|]. right. unfold gtb in C. destruct (Rlt_dec tol err); [discriminate|lra].
Qed.

Lemma pattern_length k : List.length (concat (repeat [0; 1] k)) = (2 * k)%nat.
Proof. induction k as [|k IH]; [reflexivity|]. cbn [repeat concat]. rewrite app_length, IH. cbn. lia. Qed.
Lemma pattern_nth k i : (i < 2 * k)%nat -> nth i (concat (repeat [0; 1] k)) 0 = if Nat.odd i then 1 else 0.
Proof.
  revert i. induction k as [|k IH]; intros i H; [lia|]. cbn [repeat concat app]. destruct i as [|[|i]]; [reflexivity|reflexivity|]. cbn [nth]. rewrite IH by lia. reflexivity.
Qed.
Lemma adaptive_method f tiny a b tol n method : prefix "a" method = true -> a < b -> 0 < tiny -> 0 <= tol -> (2 <= n)%Z ->
  let m := (2 * Z.to_nat (n / 2))%nat in
  exists K X marks errs, discretize f tiny a b tol n method = Ok (X K, map f (X K)) /\ X 0%nat = grid a b m /\ errs 0%nat = 1 /\
   (tol < 1 -> forall t, marks 0%nat t <-> exists i, (i < m)%nat /\ Nat.odd i = true /\ t = a + INR i * ((b - a) / INR m)) /\
   (forall k, (k <= K)%nat -> increasing (X k)) /\
   (forall k, (k < K)%nat -> round f tiny tol (X k) (marks k) (X (S k)) (marks (S k)) (errs (S k)) /\ ~ adaptive_stop tol errs k) /\ adaptive_stop tol errs K.
Proof.
  intros PM AB T P N m. unfold discretize. rewrite PM. unfold discretize_adaptive. set (n1 := if (n mod 2 =? 0)%Z then (n + 1)%Z else n).
  assert (D := Z.div_mod n 2 ltac:(lia)). assert (B := Z.mod_pos_bound n 2 ltac:(lia)). set (h := Z.to_nat (n / 2)) in *. assert (Hh : (1 <= h)%nat) by (unfold h; lia).
  assert (EN : n1 = (Z.of_nat m + 1)%Z) by (unfold n1, m, h; destruct (Z.eqb_spec (n mod 2) 0); lia). rewrite EN. rewrite linspace_grid by (unfold m; lia). cbn [bind].
  replace (Z.to_nat ((Z.of_nat m + 1 - 1) / 2)) with h by (unfold m; replace (Z.of_nat (2 * h) + 1 - 1)%Z with (Z.of_nat h * 2)%Z by lia; rewrite Z.div_mul; lia).
  set (e := concat (repeat [0; 1] h)). assert (LE : List.length e = m) by apply pattern_length.
  assert (NE : e <> []) by (intros Q; rewrite Q in LE; cbn in LE; unfold m in LE; lia).
  assert (Ae : amax e = Ok 1).
  { rewrite amax_ok by exact NE. f_equal. destruct (maxR_spec e NE) as [I M]. apply Rle_antisym.
    - apply (In_nth _ _ 0) in I. destruct I as [i [Hi <-]]. unfold e. rewrite pattern_nth by (unfold m in LE; lia). destruct (Nat.odd i); lra.
    - apply M. assert (Q : nth 1 e 0 = 1) by (unfold e; rewrite pattern_nth by lia; reflexivity). rewrite <- Q. apply nth_In. unfold m in LE. lia. }
  rewrite Ae. cbn [bind].
  assert (MK : forall i, mk tol e i -> (i < m)%nat /\ Nat.odd i = true).
  { intros i M. unfold mk in M. destruct (Nat.lt_ge_cases i m) as [C|C]; [|rewrite nth_overflow in M by lia; lra]. split; [exact C|]. unfold e in M. rewrite pattern_nth in M by exact C. destruct (Nat.odd i); [reflexivity|lra]. }
  assert (HI : Inv f tol (grid a b m) (map f (grid a b m)) e 1).
  { split; [apply grid_increasing; [exact AB|unfold m; lia]|]. split; [reflexivity|]. rewrite grid_length. split; [lia|]. split.
    - intros i M. destruct (MK i M) as [A O]. assert (i <> 0%nat) by (intros ->; discriminate). assert (i <> (m - 1)%nat \/ True) by (right; trivial). split; [lia|]. split; [lia|].
      intros M2. destruct (MK _ M2) as [_ O2]. rewrite Nat.odd_succ, <- Nat.negb_odd, O in O2. discriminate.
    - intros Q. exists 1%nat. unfold mk, e. rewrite pattern_nth by lia. cbn. exact Q. }
  destruct (adaptive_run f tiny tol T P 50 (grid a b m) e 1 0%nat HI) as [K [X [marks [errs [HK [X0 [M0 [R0 [ER [IN [H1 H2]]]]]]]]]]].
  exists K, X, marks, errs. split; [exact ER|]. split; [exact X0|]. split; [exact R0|]. split; [|split; [exact IN|split]].
  - intros T1 t. rewrite M0. split.
    + intros [i [Hi [<- M]]]. destruct (MK i M) as [A O]. exists i. split; [exact A|]. split; [exact O|]. apply grid_nth. lia.
    + intros [i [Hi [O ->]]]. exists i. rewrite grid_length. split; [lia|]. split; [apply grid_nth; lia|]. unfold mk, e. rewrite pattern_nth by exact Hi. rewrite O. exact T1.
  - intros k Hk. destruct (H1 k Hk) as [A C]. split; [exact A|]. intros [Q|[Q|Q]]; [apply C; left; exact Q|apply C; right; exact Q|lia].
  - destruct H2 as [->|[Q|Q]]; [right; right; lia|left; exact Q|right; left; exact Q].
Qed.
Lemma adaptive_shape f tiny a b tol n method : prefix "a" method = true -> a < b -> 0 < tiny -> 0 <= tol -> (2 <= n)%Z ->
  exists x, discretize f tiny a b tol n method = Ok (x, map f x) /\ increasing x /\ nth 0 x 0 = a /\ last x 0 = b /\ (forall t, In t x -> a <= t <= b) /\ incl (grid a b (2 * Z.to_nat (n / 2))) x.
Proof.
  intros PM AB T P N. destruct (adaptive_method f tiny a b tol n method PM AB T P N) as [K [X [marks [errs [E [X0 [_ [_ [IN [RD _]]]]]]]]]]. set (m := (2 * Z.to_nat (n / 2))%nat) in *.
  assert (Hm : (1 <= m)%nat). { unfold m. assert (D := Z.div_le_mono 2 n 2 ltac:(lia) N). change (2 / 2)%Z with 1%Z in D. lia. }
  assert (PM' : 0 < INR m) by (apply lt_0_INR; lia). assert (Hh : 0 < (b - a) / INR m) by (apply Rdiv_lt_0_compat; lra).
  assert (INV : forall k, (k <= K)%nat -> (forall t, In t (X k) -> a <= t <= b) /\ incl (grid a b m) (X k)).
  { induction k as [|k IH]; intros Hk.
    - rewrite X0. split; [|apply incl_refl]. intros t I. apply (In_nth _ _ 0) in I. destruct I as [i [Hi <-]]. rewrite grid_length in Hi. rewrite grid_nth by lia.
      assert (INR i <= INR m) by (apply le_INR; lia). assert (0 <= INR i) by apply pos_INR. assert (INR m * ((b - a) / INR m) = b - a) by (field; lra). nra.
    - destruct (IH ltac:(lia)) as [A B]. destruct (RD k ltac:(lia)) as [[R1 _] _]. split.
      + intros t I. apply R1 in I. destruct I as [I|[l [r [[[i [Hi [-> ->]]] _] ->]]]]; [apply A; exact I|]. assert (Q1 := A _ (nth_In (X k) 0 (Nat.lt_succ_l _ _ Hi))). assert (Q2 := A _ (nth_In (X k) 0 Hi)). lra.
      + intros t I. apply R1. left. apply B. exact I. }
  destruct (INV K ltac:(lia)) as [A B]. exists (X K). split; [exact E|]. specialize (IN K ltac:(lia)).
  assert (Ia : In a (X K)). { assert (Q : nth 0 (grid a b m) 0 = a) by (rewrite grid_nth by lia; cbn [INR]; ring). rewrite <- Q at 1. apply B, nth_In. rewrite grid_length. lia. }
  assert (Ib : In b (X K)). { assert (Q : nth m (grid a b m) 0 = b) by (rewrite grid_nth by lia; field; lra). rewrite <- Q at 1. apply B, nth_In. rewrite grid_length. lia. }
  assert (LX : (0 < List.length (X K))%nat) by (destruct (X K); [destruct Ia|cbn; lia]).
  split; [exact IN|]. split; [|split; [|split; [exact A|exact B]]].
  - apply (In_nth _ _ 0) in Ia. destruct Ia as [i [Hi Ei]]. assert (Q := increasing_le _ IN 0 i ltac:(lia) Hi). assert (Q2 := A _ (nth_In (X K) 0 LX)). lra.
  - assert (EL : last (X K) 0 = nth (List.length (X K) - 1) (X K) 0).
    { generalize (X K). induction l as [|u l IHl]; [reflexivity|]. destruct l as [|v l]; [reflexivity|]. change (last (u :: v :: l) 0) with (last (v :: l) 0). rewrite IHl. cbn [List.length]. replace (S (S (List.length l)) - 1)%nat with (S (S (List.length l) - 1))%nat by lia. reflexivity. }
    rewrite EL. apply (In_nth _ _ 0) in Ib. destruct Ib as [i [Hi Ei]]. assert (Q := increasing_le _ IN i (List.length (X K) - 1) ltac:(lia) ltac:(lia)). assert (Q2 := A _ (nth_In (X K) 0 (ltac:(lia) : (List.length (X K) - 1 < List.length (X K))%nat))). lra.
Qed.
Lemma adaptive_none f tiny a b tol n method : prefix "a" method = true -> (n <= 1)%Z -> discretize f tiny a b tol n method = Err ValueError.
Proof.
  intros PM N. unfold discretize. rewrite PM. unfold discretize_adaptive, linspaceZ. set (n1 := if (n mod 2 =? 0)%Z then (n + 1)%Z else n).
  assert (H : (n1 <= 1)%Z) by (unfold n1; destruct (Z.eqb_spec (n mod 2) 0) as [E|E]; [assert (n <> 1)%Z by (intros ->; discriminate)|]; lia).
  destruct (Z.ltb_spec n1 0); [reflexivity|]. cbn [bind]. assert (Z1 : Z.to_nat ((n1 - 1) / 2) = 0%nat) by (assert (n1 = 0 \/ n1 = 1)%Z as [->| ->] by lia; reflexivity). rewrite Z1. reflexivity.
Qed.
