(* The peaks of one row and the choice of the highest. *)
From Coq Require Import Permutation String.
From Verif Require Import Base CrossSpec CrossModel RfcSpec RfcModel ListFacts CrossProofs TpProofs TcProofs RfcTopProofs PeakModel PeakSpec AltProofs.
Local Open Scope list_scope.
Local Open Scope Z_scope.

(* every second entry *)
Lemma every2_len {A} : forall n (l : list A), (List.length l <= n)%nat -> List.length (every2 l) = ((List.length l + 1) / 2)%nat.
Proof.
  induction n as [|n IH]; intros l L; destruct l as [|a [|b l]]; try reflexivity; cbn [List.length] in L; [lia|]. cbn [every2 List.length]. rewrite IH by lia. replace (S (S (List.length l)) + 1)%nat with (List.length l + 1 + 1 * 2)%nat by lia. rewrite Nat.div_add by lia. lia.
Qed.
Lemma every2_nth {A} (d : A) : forall n l j, (List.length l <= n)%nat -> nth j (every2 l) d = nth (2 * j) l d.
Proof.
  induction n as [|n IH]; intros l j L; destruct l as [|a [|b l]]; cbn [List.length] in L; try lia.
  - destruct j; reflexivity.
  - destruct j; reflexivity.
  - destruct j as [|[|j]]; reflexivity.
  - destruct j as [|j]; [reflexivity|]. replace (2 * S j)%nat with (S (S (2 * j))) by lia. cbn [every2 nth]. apply IH. lia.
Qed.
Lemma step2_len {A} (l : list A) : List.length (step2 1 l) = (List.length l / 2)%nat.
Proof. unfold step2. rewrite (every2_len (List.length (skipn 1 l))) by lia. rewrite skipn_length. destruct l; [reflexivity|]. cbn [List.length]. f_equal. lia. Qed.
Lemma step2_nth {A} (l : list A) j d : nth j (step2 1 l) d = nth (2 * j + 1) l d.
Proof.
  unfold step2. rewrite (every2_nth d (List.length (skipn 1 l))) by lia. destruct l as [|a l]; [destruct j; reflexivity|]. cbn [skipn]. replace (2 * j + 1)%nat with (S (2 * j)) by lia. reflexivity.
Qed.
Lemma step2_in l e : In e (step2 1 l) <-> exists j, (2 * j + 1 < List.length l)%nat /\ e = nth (2 * j + 1) l 0%nat.
Proof.
  split.
  - intros H. apply In_nth with (d := 0%nat) in H. destruct H as [j [L E]]. rewrite step2_nth in E. rewrite step2_len in L. exists j. split; [|symmetry; exact E]. pose proof (Nat.div_mod (List.length l) 2 ltac:(lia)). pose proof (Nat.mod_upper_bound (List.length l) 2 ltac:(lia)). lia.
  - intros [j [L E]]. subst e. rewrite <- step2_nth. apply nth_In. rewrite step2_len. apply (Nat.div_le_lower_bound _ 2 (S j)); lia.
Qed.
Lemma increasing_NoDup l : increasing l -> NoDup l.
Proof.
  intros I. apply NoDup_nth with (d := 0%nat). intros i j Hi Hj E. destruct (lt_eq_lt_dec i j) as [[G|G]|G]; [pose proof (I i j ltac:(lia)); lia|exact G|pose proof (I j i ltac:(lia)); lia].
Qed.
Lemma step2_increasing l : increasing l -> increasing (step2 1 l).
Proof. intros I. unfold step2. apply every2_increasing. intros a b L. rewrite skipn_length in L. destruct l as [|c l]; [cbn in L; lia|]. cbn [skipn List.length] in *. apply (I (S a) (S b)). cbn [List.length]. lia. Qed.

(* legs at a place *)
Lemma legs_at x : forall l up j, legs x up l -> (S j < List.length l)%nat ->
  if xorb up (Nat.odd j) then rising x (nth j l 0%nat) (nth (S j) l 0%nat) /\ at_ x (nth j l 0%nat) < at_ x (nth (S j) l 0%nat) else falling x (nth j l 0%nat) (nth (S j) l 0%nat) /\ at_ x (nth (S j) l 0%nat) < at_ x (nth j l 0%nat).
Proof.
  induction l as [|a l IH]; intros up j H L; [cbn in L; lia|]. destruct l as [|b l]; [cbn in L; lia|]. cbn [legs] in H. destruct H as [H H']. destruct j as [|j].
  - cbn [nth Nat.odd]. change (Nat.odd 0) with false. rewrite xorb_false_r. exact H.
  - pose proof (IH (negb up) j H' ltac:(cbn [List.length] in *; lia)) as Q. rewrite Nat.odd_succ, <- Nat.negb_odd. replace (xorb up (negb (Nat.odd j))) with (xorb (negb up) (Nat.odd j)) by (destruct up, (Nat.odd j); reflexivity). exact Q.
Qed.
(* zero threshold: the entries at odd places are the peaks *)
Lemma odd_places m x ind e : (2 <= List.length x)%nat -> findtp0 m x false None = Ok (Some ind) -> (In e (step2 1 ind) <-> Peak x e).
Proof.
  intros LX H. destruct (findtp0_turning_points m x ind LX H) as [I [L3 [LA [ALL [ONLY [LG [R0 [_ _]]]]]]]].
  assert (LEN : nth (List.length ind - 1) ind 0%nat = (List.length x - 1)%nat). { rewrite <- LA. clear -L3. destruct (exists_last (l := ind)) as [l [a E]]; [intros E; rewrite E in L3; cbn in L3; lia|]. rewrite E, last_last, app_length. cbn [List.length]. rewrite app_nth2 by lia. replace (List.length l + 1 - 1 - List.length l)%nat with 0%nat by lia. reflexivity. }
  assert (RI : forall j, (S (S j) < List.length ind)%nat -> if Nat.odd j then rising x (nth (S j) ind 0%nat) (nth (S (S j)) ind 0%nat) /\ at_ x (nth (S j) ind 0%nat) < at_ x (nth (S (S j)) ind 0%nat) else falling x (nth (S j) ind 0%nat) (nth (S (S j)) ind 0%nat) /\ at_ x (nth (S (S j)) ind 0%nat) < at_ x (nth (S j) ind 0%nat)).
  { intros j Lj. destruct ind as [|a0 l]; [cbn in Lj; lia|]. cbn [tl] in LG. pose proof (legs_at x l false j LG ltac:(cbn [List.length] in Lj; lia)) as Q. rewrite xorb_false_l in Q. exact Q. }
  assert (INC : forall j, (S j < List.length ind)%nat -> (nth j ind 0 < nth (S j) ind 0)%nat) by (intros j Lj; apply I; lia).
  assert (RIS : forall j, (S j < List.length ind)%nat -> Nat.odd j = false -> rising x (nth j ind 0%nat) (nth (S j) ind 0%nat)).
  { intros j Lj E. destruct j as [|j]; [exact R0|]. pose proof (RI j ltac:(lia)) as Q. rewrite Nat.odd_succ, <- Nat.negb_odd in E. destruct (Nat.odd j); [exact (proj1 Q)|discriminate]. }
  assert (FAL : forall j, (S j < List.length ind)%nat -> Nat.odd j = true -> falling x (nth j ind 0%nat) (nth (S j) ind 0%nat)).
  { intros j Lj E. destruct j as [|j]; [discriminate|]. pose proof (RI j ltac:(lia)) as Q. rewrite Nat.odd_succ, <- Nat.negb_odd in E. destruct (Nat.odd j); [discriminate|exact (proj1 Q)]. }
  assert (ODD : forall j, Nat.odd (2 * j + 1) = true) by (intros j; apply Nat.odd_spec; exists j; lia).
  rewrite step2_in. split.
  - intros [j [Lj E]]. assert (e > 0)%nat by (subst e; pose proof (I 0%nat (2 * j + 1)%nat ltac:(lia)); lia).
    destruct (Nat.eq_dec (S (2 * j + 1)) (List.length ind)) as [EL|NL].
    + right. assert (EE : e = (List.length x - 1)%nat) by (rewrite E, <- LEN; f_equal; lia). split; [lia|]. destruct j as [|j]; [lia|]. pose proof (RI (2 * j + 1)%nat ltac:(lia)) as Q. rewrite ODD in Q. replace (S (S (2 * j + 1))) with (2 * S j + 1)%nat in Q by lia. rewrite <- E in Q. set (a := nth (S (2 * j + 1)) ind 0%nat) in *. destruct Q as [RS ST].
      assert (AE : (a < e)%nat) by (rewrite E; unfold a; apply I; lia).
      assert (UP : forall k, (a <= k <= e)%nat -> at_ x k <= at_ x e). { intros k Lk. remember (e - k)%nat as d eqn:Ed. revert k Lk Ed. induction d as [|d IH]; intros k Lk Ed; [replace k with e by lia; lia|]. pose proof (IH (S k) ltac:(lia) ltac:(lia)). pose proof (RS k ltac:(lia)). lia. }
      destruct (latest (fun k => at_ x k < at_ x e) (fun k => ltac:(dz)) e) as [[k [Lk [Hk Nk]]]|N]; [|exfalso; exact (N a AE ST)]. assert (a <= k)%nat by (destruct (le_lt_dec a k); [assumption|exfalso; apply (Nk a); [lia|exact ST]]).
      exists k. split; [exact Lk|]. split; [exact Hk|]. intros q Lq. destruct (Nat.eq_dec q e) as [->|]; [reflexivity|]. pose proof (Nk q ltac:(lia)). pose proof (UP q ltac:(lia)). lia.
    + assert (IN : In e ind) by (rewrite E; apply nth_In; lia). pose proof (INC (2 * j + 1)%nat ltac:(lia)) as LT. rewrite <- E in LT. assert (UB : (nth (S (2 * j + 1)) ind 0 <= List.length x - 1)%nat). { rewrite <- LEN. destruct (Nat.eq_dec (S (2 * j + 1)) (List.length ind - 1)) as [->|]; [lia|]. pose proof (I (S (2 * j + 1)) (List.length ind - 1)%nat ltac:(lia)). lia. }
      destruct (ONLY e IN) as [C|[C|[C|C]]]; [lia|lia| |left; exact C]. exfalso. destruct C as [_ [_ [C _]]]. pose proof (FAL (2 * j + 1)%nat ltac:(lia) (ODD j)) as F. rewrite <- E in F. pose proof (F e ltac:(lia)). lia.
  - intros P. assert (IN : In e ind). { destruct P as [P|[P _]]; [apply ALL; right; exact P|]. replace e with (nth (List.length ind - 1) ind 0%nat) by lia. apply nth_In. lia. }
    apply In_nth with (d := 0%nat) in IN. destruct IN as [j [Lj E]]. destruct (Nat.odd j) eqn:OJ; [apply Nat.odd_spec in OJ; destruct OJ as [q ->]; exists q; split; [exact Lj|symmetry; exact E]|]. exfalso. destruct P as [P|[P1 [k [Lk [Hk Fk]]]]].
    + destruct P as [Pe [Pl [Pd _]]]. destruct (Nat.eq_dec (S j) (List.length ind)) as [EL|NL]; [replace j with (List.length ind - 1)%nat in E by lia; lia|]. pose proof (RIS j ltac:(lia) OJ) as Q. rewrite E in Q. pose proof (INC j ltac:(lia)) as LT. rewrite E in LT. pose proof (Q e ltac:(lia)). lia.
    + assert (EJ : j = (List.length ind - 1)%nat). { destruct (Nat.eq_dec j (List.length ind - 1)) as [|NJ]; [assumption|]. pose proof (I j (List.length ind - 1)%nat ltac:(lia)) as Q. rewrite LEN, E in Q. lia. }
      destruct j as [|[|j]]; [lia|discriminate|]. pose proof (RI j ltac:(lia)) as Q. assert (OJ' : Nat.odd j = false) by (rewrite !Nat.odd_succ, Nat.even_succ in OJ; exact OJ). rewrite OJ' in Q. rewrite E in Q. set (a := nth (S j) ind 0%nat) in *. destruct Q as [FS ST]. assert (AE : (a < e)%nat) by (rewrite <- E; unfold a; apply I; lia).
      assert (DN : forall q, (a <= q <= e)%nat -> at_ x e <= at_ x q). { intros q Lq. remember (e - q)%nat as d eqn:Ed. revert q Lq Ed. induction d as [|d IH]; intros q Lq Ed; [replace q with e by lia; lia|]. pose proof (IH (S q) ltac:(lia) ltac:(lia)). pose proof (FS q ltac:(lia)). lia. }
      destruct (le_lt_dec a k) as [G|G]; [pose proof (DN k ltac:(lia)); lia|]. pose proof (Fk a ltac:(lia)). lia.
Qed.
(* positive threshold *)
Lemma odd_places_h l : increasing l -> (forall j, (j < List.length l)%nat -> Nat.odd (nth j l 0%nat) = Nat.odd j) -> forall (t : list nat) e, In e (step2 1 (map (fun i => nth i t 0%nat) l)) <-> exists k, In k l /\ Nat.odd k = true /\ e = nth k t 0%nat.
Proof.
  intros I O t e. rewrite step2_in, map_length. split.
  - intros [j [L E]]. exists (nth (2 * j + 1) l 0%nat). split; [apply nth_In; exact L|]. split; [rewrite O by exact L; apply Nat.odd_spec; exists j; lia|]. rewrite E. rewrite nth_indep with (d' := nth 0 t 0%nat) by (rewrite map_length; exact L). apply (map_nth (fun i => nth i t 0%nat)).
  - intros [k [IN [OK E]]]. apply In_nth with (d := 0%nat) in IN. destruct IN as [j [L Ej]]. pose proof (O j L) as Q. rewrite Ej, OK in Q. symmetry in Q. apply Nat.odd_spec in Q. destruct Q as [q ->]. exists q. split; [exact L|]. rewrite nth_indep with (d' := nth 0 t 0%nat) by (rewrite map_length; exact L). rewrite (map_nth (fun i => nth i t 0%nat)), Ej. exact E.
Qed.
(* scaling *)
Lemma at_scale d x k : at_ (map (Z.mul d) x) k = d * at_ x k.
Proof. unfold at_. replace 0 with (d * 0) at 1 by ring. apply map_nth. Qed.
Lemma TurnsDown_scale d x e : 0 < d -> (TurnsDown (map (Z.mul d) x) e <-> TurnsDown x e).
Proof.
  intros D. unfold TurnsDown. rewrite map_length. split; intros [A [B [C H]]]; (split; [exact A|]); (split; [exact B|]).
  - rewrite !at_scale in C. split; [nia|]. intros k L F. assert (d * at_ x k <= d * at_ x e); [|nia]. rewrite <- !at_scale. apply H; [exact L|]. intros q Lq. rewrite !at_scale. rewrite (F q Lq). reflexivity.
  - rewrite !at_scale. split; [nia|]. intros k L F. rewrite !at_scale. assert (at_ x k <= at_ x e); [|nia]. apply H; [exact L|]. intros q Lq. pose proof (F q Lq) as E. rewrite !at_scale in E. nia.
Qed.
Lemma TurnsUp_scale d x e : 0 < d -> (TurnsUp (map (Z.mul d) x) e <-> TurnsUp x e).
Proof.
  intros D. unfold TurnsUp. rewrite map_length. split; intros [A [B [C H]]]; (split; [exact A|]); (split; [exact B|]).
  - rewrite !at_scale in C. split; [nia|]. intros k L F. assert (d * at_ x e <= d * at_ x k); [|nia]. rewrite <- !at_scale. apply H; [exact L|]. intros q Lq. rewrite !at_scale. rewrite (F q Lq). reflexivity.
  - rewrite !at_scale. split; [nia|]. intros k L F. rewrite !at_scale. assert (at_ x e <= at_ x k); [|nia]. apply H; [exact L|]. intros q Lq. pose proof (F q Lq) as E. rewrite !at_scale in E. nia.
Qed.
Lemma Peak_scale d x e : 0 < d -> (Peak (map (Z.mul d) x) e <-> Peak x e).
Proof.
  intros D. unfold Peak. rewrite TurnsDown_scale by exact D. unfold RisesToEnd. rewrite map_length. split; intros [H|[A [k [L [B C]]]]]; [left; exact H|right|left; exact H|right]; (split; [exact A|]); exists k; (split; [exact L|]).
  - rewrite !at_scale in B. split; [nia|]. intros j Lj. pose proof (C j Lj) as E. rewrite !at_scale in E. nia.
  - rewrite !at_scale. split; [nia|]. intros j Lj. rewrite !at_scale, (C j Lj). reflexivity.
Qed.
(* the highest *)
Lemma top_of (argsort : list Z -> list nat) (height : nat -> Z) ind n : sorts argsort -> NoDup ind ->
  Top (fun e => In e ind) height n (map (fun j => nth j ind 0%nat) (upto (Z.min (Z.of_nat n) (Z.of_nat (List.length ind))) (rev (argsort (map height ind))))).
Proof.
  intros SO ND. destruct (SO (map height ind)) as [PE ORD]. rewrite map_length in PE, ORD. set (o := argsort (map height ind)) in *. set (N := List.length ind) in *.
  assert (LO : List.length o = N) by (rewrite (Permutation_length PE), seq_length; reflexivity).
  assert (E : upto (Z.min (Z.of_nat n) (Z.of_nat N)) (rev o) = firstn (Nat.min n N) (rev o)). { unfold upto. destruct (Z.ltb_spec (Z.min (Z.of_nat n) (Z.of_nat N)) 0); [lia|]. f_equal. lia. }
  rewrite E. set (k := Nat.min n N). assert (NDo : NoDup (rev o)) by (apply NoDup_rev; apply (Permutation_NoDup (Permutation_sym PE)), seq_NoDup).
  assert (INo : forall j, In j o <-> (j < N)%nat). { intros j. split; intros H; [apply (Permutation_in j PE), in_seq in H; lia|apply (Permutation_in j (Permutation_sym PE)), in_seq; lia]. }
  assert (SP : rev o = firstn k (rev o) ++ skipn k (rev o)) by (symmetry; apply firstn_skipn).
  assert (LK : List.length (firstn k (rev o)) = k) by (rewrite firstn_length, rev_length, LO; unfold k; lia).
  assert (NTH : forall a, (a < k)%nat -> nth a (firstn k (rev o)) 0%nat = nth (N - 1 - a) o 0%nat).
  { intros a La. transitivity (nth a (rev o) 0%nat); [rewrite SP at 2; rewrite app_nth1 by lia; reflexivity|]. rewrite rev_nth by (rewrite LO; unfold k in La; lia). f_equal. rewrite LO. lia. }
  assert (HT : forall j, (j < N)%nat -> nth j (map height ind) 0 = height (nth j ind 0%nat)) by (intros j Lj; rewrite nth_indep with (d' := height 0%nat) by (rewrite map_length; exact Lj); apply map_nth).
  assert (MN : forall a, (a < k)%nat -> nth a (map (fun j => nth j ind 0%nat) (firstn k (rev o))) 0%nat = nth (nth (N - 1 - a) o 0%nat) ind 0%nat).
  { intros a La. rewrite nth_indep with (d' := nth 0 ind 0%nat) by (rewrite map_length; lia). rewrite (map_nth (fun j => nth j ind 0%nat)), NTH by exact La. reflexivity. }
  assert (KN : (k <= N)%nat) by (unfold k; lia).
  split; [|split; [|split; [|split]]].
  - assert (ND1 : NoDup (firstn k (rev o))). { rewrite SP in NDo. clear -NDo. revert NDo. generalize (skipn k (rev o)). induction (firstn k (rev o)) as [|a l IH]; intros r H; [constructor|]. cbn [app] in H. inversion H as [|? ? H1 H2]. constructor; [|exact (IH r H2)]. intros C. apply H1, in_or_app. left. exact C. }
    assert (IN1 : forall j, In j (firstn k (rev o)) -> (j < N)%nat). { intros j H. apply INo. apply in_rev. rewrite SP. apply in_or_app. left. exact H. }
    clear -ND ND1 IN1. induction (firstn k (rev o)) as [|a l IH]; [constructor|]. inversion ND1 as [|? ? H1 H2]; subst. cbn [map]. constructor; [|apply IH; [exact H2|intros j Hj; apply IN1; right; exact Hj]]. intros C. apply in_map_iff in C. destruct C as [b [E1 Hb]]. apply H1. assert (EAB : a = b); [apply (proj1 (NoDup_nth ind 0%nat) ND a b)|subst b; exact Hb]; [apply IN1; left; reflexivity|apply IN1; right; exact Hb|symmetry; exact E1].
  - intros e H. apply in_map_iff in H. destruct H as [j [<- H]]. apply nth_In. apply INo, in_rev. rewrite SP. apply in_or_app. left. exact H.
  - rewrite map_length, LK. unfold k. lia.
  - intros a b L. rewrite map_length, LK in L. rewrite !MN by lia. rewrite <- !HT by (apply INo, nth_In; lia). apply ORD. lia.
  - intros e He NI. apply In_nth with (d := 0%nat) in He. destruct He as [j [Lj Ej]]. fold N in Lj. assert (Ho : In j o) by (apply INo; exact Lj). apply In_nth with (d := 0%nat) in Ho. destruct Ho as [q [Lq Eq]]. rewrite LO in Lq.
    assert (QK : (q < N - k)%nat). { destruct (le_lt_dec (N - k) q) as [G|G]; [exfalso|exact G]. apply NI. rewrite <- Ej, <- Eq. replace q with (N - 1 - (N - 1 - q))%nat by lia. rewrite <- MN by lia. apply nth_In. rewrite map_length. lia. }
    split; [rewrite map_length, LK; unfold k in *; lia|]. intros e' H'. apply In_nth with (d := 0%nat) in H'. destruct H' as [a [La Ea]]. rewrite map_length, LK in La. rewrite MN in Ea by exact La. rewrite <- Ea, <- Ej, <- Eq. rewrite <- !HT by (apply INo, nth_In; lia). apply ORD. lia.
Qed.
Lemma Top_ext (P Q : nat -> Prop) height n top : (forall e, P e <-> Q e) -> Top P height n top -> Top Q height n top.
Proof. intros E [A [B [C [D F]]]]. split; [exact A|]. split; [intros e H; apply E, B, H|]. split; [exact C|]. split; [exact D|]. intros e H N. apply F; [apply E; exact H|exact N]. Qed.
