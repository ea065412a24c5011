(* The extrapolation of level crossing spectra. *)
From Coq Require Import Reals List ZArith Lra Lia String.
From Verif Require Import Base PolyModel ProcModel ProcSpec ProcProofs ProcProofs2 SpectModel SpectProofs7 LcxModel LcxSpec LcxProofs.
Import ListNotations.
Local Open Scope R_scope.

Fixpoint desc (l : list (R * R)) : Prop := match l with [] => True | p :: l => (forall q, In q l -> snd q < snd p) /\ desc l end.
Fixpoint asc (l : list (R * R)) : Prop := match l with [] => True | p :: l => (forall q, In q l -> snd p < snd q) /\ asc l end.
Lemma desc_app l a : desc l -> (forall q, In q l -> snd a < snd q) -> desc (l ++ [a]).
Proof. induction l as [|p l IH]; intros D H; [split; [intros q []|exact I]|]. destruct D as [D1 D2]. cbn [app desc]. split; [|apply IH; [exact D2|intros q Hq; apply H; right; exact Hq]]. intros q Hq. apply in_app_or in Hq. destruct Hq as [Hq|[<-|[]]]; [apply D1, Hq|apply H; left; reflexivity]. Qed.
Lemma desc_rev l : asc l -> desc (rev l).
Proof. induction l as [|p l IH]; intros A; [exact I|]. destruct A as [A1 A2]. cbn [rev]. apply desc_app; [apply IH, A2|]. intros q Hq. apply A1, in_rev, Hq. Qed.
Lemma asc_filter f l : asc l -> asc (filter f l).
Proof. induction l as [|p l IH]; intros A; [exact I|]. destruct A as [A1 A2]. cbn [filter]. destruct (f p); [split; [intros q Hq; apply filter_In in Hq; apply A1, Hq|apply IH, A2]|apply IH, A2]. Qed.
Lemma increasing_tl a l : increasingR (a :: l) -> (forall b, In b l -> a < b) /\ increasingR l.
Proof.
  intros H. split.
  - intros b Hb. apply In_nth with (d := 0) in Hb. destruct Hb as [j [L E]]. subst b. apply (H 0%nat (S j)). cbn [List.length]. lia.
  - intros i j L. apply (H (S i) (S j)). cbn [List.length]. lia.
Qed.
Lemma asc_combine f x : increasingR x -> asc (combine f x).
Proof.
  revert f. induction x as [|a x IH]; intros f H; destruct f as [|b f]; try exact I. apply increasing_tl in H. destruct H as [H1 H2]. cbn [combine asc]. split; [|apply IH, H2]. intros q Hq. destruct q as [q1 q2]. apply in_combine_r in Hq. apply H1, Hq.
Qed.
Fixpoint fmax (v last : R) (l : list (R * R)) : R := match l with [] => last | (f, t) :: l => if Rle_dec v t then fmax v (Rmax last f) l else fmax v last l end.
Lemma fmax_spec v l : forall last, last <= fmax v last l /\ (forall f t, In (f, t) l -> v <= t -> f <= fmax v last l) /\ (fmax v last l = last \/ exists f t, In (f, t) l /\ v <= t /\ f = fmax v last l).
Proof.
  induction l as [|[f t] l IH]; intros last; cbn [fmax]; [split; [lra|]; split; [intros f t []|left; reflexivity]|]. destruct (Rle_dec v t) as [G|G].
  - destruct (IH (Rmax last f)) as [A [B C]]. pose proof (Rmax_l last f). pose proof (Rmax_r last f). split; [lra|]. split; [intros f' t' [E|Hf] Ht; [injection E as <- <-; lra|apply (B f' t' Hf Ht)]|].
    destruct C as [C|[f' [t' [C1 [C2 C3]]]]]; [|right; exists f', t'; split; [right; exact C1|split; assumption]]. rewrite C. unfold Rmax. destruct (Rle_dec last f); [right; exists f, t; split; [left; reflexivity|split; [exact G|reflexivity]]|left; reflexivity].
  - destruct (IH last) as [A [B C]]. split; [exact A|]. split; [intros f' t' [E|Hf] Ht; [injection E as <- <-; lra|apply (B f' t' Hf Ht)]|]. destruct C as [C|[f' [t' [C1 [C2 C3]]]]]; [left; exact C|right; exists f', t'; split; [right; exact C1|split; assumption]].
Qed.
Lemma count_app v a b : count_from v (a ++ b) = (count_from v a + count_from v b)%nat. Proof. unfold count_from. rewrite filter_app, app_length. reflexivity. Qed.
Lemma count_repeat v a n : count_from v (repeat a n) = if Rle_dec v a then n else 0%nat.
Proof. unfold count_from. induction n as [|n IH]; cbn [repeat filter]; [destruct (Rle_dec v a); reflexivity|]. destruct (Rle_dec v a); [cbn [List.length]; rewrite IH; reflexivity|exact IH]. Qed.
Lemma floor_mono a b : a <= b -> (floor a <= floor b)%Z.
Proof. intros H. pose proof (floor_spec a). pose proof (floor_spec b). assert (floor a < floor b + 1)%Z by (apply lt_IZR; rewrite plus_IZR; lra). lia. Qed.
Lemma records_in l : forall last q, In q (records last l) -> In q l.
Proof. induction l as [|[f t] l IH]; intros last q H; [destruct H|]. cbn [records] in H. destruct (Rlt_dec last f); [destruct H as [<-|H]; [left; reflexivity|right; apply (IH f), H]|right; apply (IH last), H]. Qed.
Lemma sample_spec u l : forall last, desc l -> exists x, sample u (floor last) (records last l) = Ok x /\ (forall w, In w x -> exists q, In q l /\ w = snd q - u) /\
  forall v, (Z.of_nat (count_from (v - u) x) + floor last = floor (fmax v last l))%Z.
Proof.
  induction l as [|[f t] l IH]; intros last D; cbn [records].
  - exists []. split; [reflexivity|]. split; [intros w []|]. intros v. cbn [fmax]. unfold count_from. cbn. lia.
  - destruct D as [D1 D2]. cbn [snd] in D1. destruct (Rlt_dec last f) as [G|G].
    + destruct (IH f D2) as [x [Ex [Wx Cx]]]. cbn [sample]. pose proof (floor_mono last f ltac:(lra)) as FM. destruct (Z.ltb_spec (floor f) (floor last)); [lia|]. rewrite Ex. cbn [bind]. eexists. split; [reflexivity|]. split.
      * intros w Hw. apply in_app_or in Hw. destruct Hw as [Hw|Hw]; [apply repeat_spec in Hw; exists (f, t); split; [left; reflexivity|exact Hw]|]. destruct (Wx w Hw) as [q [Hq E]]. exists q. split; [right; exact Hq|exact E].
      * intros v. rewrite count_app, count_repeat. cbn [fmax]. destruct (Rle_dec (v - u) (t - u)) as [A|A]; destruct (Rle_dec v t) as [B|B]; try lra.
        -- rewrite Rmax_right by lra. rewrite <- Cx. lia.
        -- assert (Z0 : count_from (v - u) x = 0%nat). { unfold count_from. assert (F : filter (fun a => if Rle_dec (v - u) a then true else false) x = []); [|rewrite F; reflexivity]. assert (NB : forall w, In w x -> ~ (v - u <= w)) by (intros w Hw; destruct (Wx w Hw) as [q [Hq E]]; pose proof (D1 q Hq); lra). clear -NB. induction x as [|w x IH]; [reflexivity|]. cbn [filter]. destruct (Rle_dec (v - u) w) as [C|C]; [exfalso; exact (NB w (or_introl eq_refl) C)|]. apply IH. intros w' Hw'. apply NB. right. exact Hw'. }
           rewrite Z0. assert (FM2 : fmax v last l = last). { assert (NB : forall q, In q l -> snd q < v) by (intros q Hq; pose proof (D1 q Hq); lra). clear -NB. revert last. induction l as [|[f t] l IH]; intros last; [reflexivity|]. cbn [fmax]. pose proof (NB (f, t) (or_introl eq_refl)) as Q. cbn [snd] in Q. destruct (Rle_dec v t); [lra|]. apply IH. intros q Hq. apply NB. right. exact Hq. }
           rewrite FM2. lia.
    + destruct (IH last D2) as [x [Ex [Wx Cx]]]. exists x. split; [exact Ex|]. split; [intros w Hw; destruct (Wx w Hw) as [q [Hq E]]; exists q; split; [right; exact Hq|exact E]|]. intros v. rewrite Cx. cbn [fmax]. destruct (Rle_dec v t); [rewrite Rmax_left by lra; reflexivity|reflexivity].
Qed.
Lemma sample_first u l : l <> [] -> desc l -> (forall q, In q l -> 0 <= fst q) -> exists r x, make_increasing l = Ok r /\ sample u 0 r = Ok x /\ (forall w, In w x -> exists q, In q l /\ w = snd q - u) /\ forall v, (exists q, In q l /\ v <= snd q) -> (Z.of_nat (count_from (v - u) x) = floor (fmax v 0 l))%Z.
Proof.
  intros NE D P. destruct l as [|[f t] l]; [contradiction|]. assert (F0 : 0 <= f) by (apply (P (f, t)); left; reflexivity). destruct D as [D1 D2]. cbn [snd] in D1. destruct (sample_spec u l f D2) as [x [Ex [Wx Cx]]]. exists ((f, t) :: records f l). cbn [make_increasing sample].
  assert (FZ : (0 <= floor f)%Z) by (pose proof (floor_mono 0 f F0) as Q; rewrite (floor_unique 0 0) in Q by lra; exact Q). destruct (Z.ltb_spec (floor f) 0); [lia|]. rewrite Ex. cbn [bind]. eexists. split; [reflexivity|]. split; [reflexivity|]. split.
  - intros w Hw. apply in_app_or in Hw. destruct Hw as [Hw|Hw]; [apply repeat_spec in Hw; exists (f, t); split; [left; reflexivity|exact Hw]|]. destruct (Wx w Hw) as [q [Hq E]]. exists q. split; [right; exact Hq|exact E].
  - intros v [q [Hq Lq]]. assert (VT : v <= t) by (destruct Hq as [<-|Hq]; [exact Lq|pose proof (D1 q Hq); lra]). rewrite count_app, count_repeat. destruct (Rle_dec (v - u) (t - u)) as [_|A]; [|lra]. cbn [fmax]. destruct (Rle_dec v t) as [_|A]; [|lra]. rewrite Rmax_right by lra. rewrite <- Cx. lia.
Qed.
Lemma combine_in (f x : list R) k : List.length f = List.length x -> (k < List.length x)%nat -> In (nth k f 0, nth k x 0) (combine f x).
Proof. intros L H. rewrite <- (combine_nth f x k 0 0 L). apply nth_In. rewrite combine_length. lia. Qed.
Lemma combine_in_inv (f x : list R) a b : List.length f = List.length x -> In (a, b) (combine f x) -> exists k, (k < List.length x)%nat /\ nth k f 0 = a /\ nth k x 0 = b.
Proof. intros L H. apply In_nth with (d := (0, 0)) in H. destruct H as [k [Lk E]]. rewrite combine_length in Lk. rewrite combine_nth in E by exact L. injection E as E1 E2. exists k. split; [lia|]. split; assumption. Qed.
Lemma increasing_le x i j : increasingR x -> (i < List.length x)%nat -> (j < List.length x)%nat -> nth i x 0 <= nth j x 0 -> (i <= j)%nat.
Proof. intros I Li Lj H. destruct (le_lt_dec i j); [assumption|]. pose proof (I j i ltac:(lia)). lra. Qed.
Lemma tail_ok fit dist lcx lcf u : known dist -> increasingR lcx -> List.length lcf = List.length lcx -> (forall d, In d lcf -> 0 <= d) -> (exists k, (k < List.length lcx)%nat /\ u < nth k lcx 0) ->
  exists x, exceedances lcx lcf u x /\ tail fit dist lcx lcf u = Ok (map (fun k => (INR k / 100 + u, (interp lcx lcf u + 1) * fit x (INR k / 100))) (seq 0 401)).
Proof.
  intros KD I L P [k0 [Lk0 Hk0]]. unfold tail. set (ex := filter (fun ft => if Rlt_dec u (snd ft) then true else false) (combine lcf lcx)).
  assert (INE : forall a b, In (a, b) ex <-> exists k, (k < List.length lcx)%nat /\ nth k lcf 0 = a /\ nth k lcx 0 = b /\ u < b).
  { intros a b. unfold ex. rewrite filter_In. cbn [snd]. split.
    - intros [H1 H2]. destruct (combine_in_inv lcf lcx a b L H1) as [k [A [B C]]]. exists k. destruct (Rlt_dec u b); [|discriminate]. repeat split; assumption.
    - intros [k [A [B [C D]]]]. subst a b. split; [apply combine_in; assumption|]. destruct (Rlt_dec u (nth k lcx 0)); [reflexivity|contradiction]. }
  assert (IR : forall q, In q (rev ex) <-> In q ex) by (intros q; symmetry; apply in_rev).
  destruct (sample_first u (rev ex)) as [r [x [E1 [E2 [W C]]]]].
  - intros Q. assert (X : In (nth k0 lcf 0, nth k0 lcx 0) (rev ex)) by (apply IR, INE; exists k0; repeat split; assumption). rewrite Q in X. destruct X.
  - apply desc_rev. unfold ex. apply asc_filter, asc_combine, I.
  - intros [a b] Hq. apply IR, INE in Hq. destruct Hq as [k [A [B _]]]. cbn [fst]. subst a. apply P, nth_In. lia.
  - rewrite E1. cbn [bind]. rewrite E2. cbn [bind]. exists x. split.
    + split.
      * intros v Hv. destruct (W v Hv) as [[a b] [Hq E]]. apply IR, INE in Hq. destruct Hq as [k [_ [_ [_ H]]]]. cbn [snd] in E. lra.
      * intros k m Lk Uk [[j [Lj Ej]] Mm]. assert (IN : In (nth k lcf 0, nth k lcx 0) (rev ex)) by (apply IR, INE; exists k; repeat split; assumption).
        pose proof (C (nth k lcx 0)) as Q. assert (HV : exists q, In q (rev ex) /\ nth k lcx 0 <= snd q) by (exists (nth k lcf 0, nth k lcx 0); split; [exact IN|cbn; lra]). specialize (Q HV).
        assert (FM : fmax (nth k lcx 0) 0 (rev ex) = m).
        { destruct (fmax_spec (nth k lcx 0) (rev ex) 0) as [F1 [F2 F3]]. rewrite L in Lj, Mm. apply Rle_antisym.
          - destruct F3 as [F3|[f [t [G1 [G2 G3]]]]].
            + rewrite F3. rewrite <- Ej. apply P, nth_In. lia.
            + rewrite <- G3. apply IR, INE in G1. destruct G1 as [i [Li [A [B _]]]]. subst f t. apply Mm. split; [|exact Li]. apply (increasing_le lcx); assumption.
          - rewrite <- Ej. apply F2 with (t := nth j lcx 0); [apply IR, INE; exists j; split; [lia|]; split; [reflexivity|]; split; [reflexivity|]; destruct (Nat.eq_dec k j) as [<-|]; [exact Uk|pose proof (I k j ltac:(lia)); lra]|destruct (Nat.eq_dec k j) as [<-|]; [lra|left; apply I; lia]]. }
        rewrite FM in Q. lia.
    + destruct KD as [K|[K|[K|K]]]; rewrite K, ?orb_true_r; reflexivity.
Qed.
Lemma mirror_length l : List.length (mirror l) = List.length l. Proof. unfold mirror. rewrite map_length, rev_length. reflexivity. Qed.
Lemma mirror_nth l k : (k < List.length l)%nat -> nth k (mirror l) 0 = - nth (List.length l - 1 - k) l 0.
Proof. intros H. unfold mirror. rewrite nth_indep with (d' := - 0) by (rewrite map_length, rev_length; exact H). rewrite (map_nth Ropp), rev_nth by exact H. f_equal. f_equal. lia. Qed.
Lemma mirror_increasing l : increasingR l -> increasingR (mirror l).
Proof. intros I i j L. rewrite mirror_length in L. rewrite !mirror_nth by lia. pose proof (I (List.length l - 1 - j)%nat (List.length l - 1 - i)%nat ltac:(lia)). lra. Qed.
Lemma incR_step x : increasingR x -> increasing x. Proof. intros I i L. apply I. lia. Qed.
Lemma interp_inside x f t : increasingR x -> List.length f = List.length x -> (exists k, (k < List.length x)%nat /\ nth k x 0 < t) -> (exists k, (k < List.length x)%nat /\ t < nth k x 0) -> interpolated x f t (interp x f t).
Proof.
  intros I L [k [Lk Hk]] [k' [Lk' Hk']]. assert (k < k')%nat by (destruct (le_lt_dec k' k); [|assumption]; destruct (Nat.eq_dec k k') as [->|]; [lra|pose proof (I k' k ltac:(lia)); lra]).
  apply interp_spec; [apply incR_step, I|exact L|lia|]. unfold ProcSpec.at_. split.
  - destruct (Nat.eq_dec k 0) as [->|]; [lra|]. pose proof (I 0%nat k ltac:(lia)). lra.
  - destruct (Nat.eq_dec k' (List.length x - 1)) as [<-|]; [lra|]. pose proof (I k' (List.length x - 1)%nat ltac:(lia)). lra.
Qed.
Lemma interpolated_mirror x f t y : increasingR x -> List.length f = List.length x -> interpolated (mirror x) (rev f) (- t) y -> interpolated x f t y.
Proof.
  intros I L [i [Li [H E]]]. rewrite mirror_length in Li. unfold ProcSpec.at_ in *. rewrite !mirror_nth in H, E by lia. rewrite !rev_nth in E by lia. set (n := List.length x) in *. exists (n - 1 - S i)%nat. split; [fold n; lia|]. unfold ProcSpec.at_. replace (S (n - 1 - S i)) with (n - 1 - i)%nat by lia. split; [lra|].
  rewrite L in E. replace (n - S i)%nat with (n - 1 - i)%nat in E by lia. replace (n - S (S i))%nat with (n - 1 - S i)%nat in E by lia. pose proof (I (n - 1 - S i)%nat (n - 1 - i)%nat ltac:(fold n; lia)). rewrite E. field. all: try lra.
Qed.
Lemma seq_rev_nth n i : (i < n)%nat -> nth i (rev (seq 0 n)) 0%nat = (n - 1 - i)%nat.
Proof. intros H. rewrite rev_nth by (rewrite seq_length; exact H). rewrite seq_length, seq_nth by lia. lia. Qed.
Lemma increasing_app a b : increasingR a -> increasingR b -> (forall u v, In u a -> In v b -> u < v) -> increasingR (a ++ b).
Proof.
  intros A B C i j L. rewrite app_length in L. destruct (le_lt_dec (List.length a) j) as [G|G]; [|rewrite (app_nth1 a b 0 (n:=i)), (app_nth1 a b 0 (n:=j)) by lia; apply A; lia]. rewrite (app_nth2 a b 0 (n:=j)) by lia. destruct (le_lt_dec (List.length a) i) as [G'|G']; [rewrite (app_nth2 a b 0 (n:=i)) by lia; apply B; lia|]. rewrite (app_nth1 a b 0 (n:=i)) by lia. apply C; apply nth_In; lia.
Qed.
Lemma asc_map l : asc l -> increasingR (map snd l).
Proof.
  induction l as [|p l IH]; intros A; [intros i j L; cbn in L; lia|]. destruct A as [A1 A2]. intros i j L. destruct j as [|j]; [lia|]. cbn [map List.length] in L. destruct i as [|i]; cbn [map nth]; [|apply IH; [exact A2|lia]]. assert (Q : In (nth j (map snd l) 0) (map snd l)) by (apply nth_In; lia). apply in_map_iff in Q. destruct Q as [q [E Hq]]. rewrite <- E. apply A1, Hq.
Qed.
Lemma extrapolate_ok fit dist data args umin umax : known dist -> increasingR args -> List.length data = List.length args -> (forall d, In d data -> 0 <= d) -> umin < umax ->
  (exists k, (k < List.length args)%nat /\ nth k args 0 < umin) -> (exists k, (k < List.length args)%nat /\ umax < nth k args 0) ->
  exists low high ylow yhigh, interpolated args data umin ylow /\ interpolated args data umax yhigh /\ exceedances args data umax high /\ exceedances (mirror args) (rev data) (- umin) low /\
    let mid := filter (fun ft => if Rlt_dec umin (snd ft) then (if Rlt_dec (snd ft) umax then true else false) else false) (combine data args) in
    let levels := (map (fun k => umin - INR k / 100) (rev (seq 0 401)) ++ map snd mid ++ map (fun k => umax + INR k / 100) (seq 0 401))%list in
    increasingR levels /\
    extrapolate fit dist data args (Some umin) (Some umax) =
      Ok ((map (fun k => (ylow + 1) * fit low (INR k / 100)) (rev (seq 0 401)) ++ map fst mid ++ map (fun k => (yhigh + 1) * fit high (INR k / 100)) (seq 0 401))%list, levels).
Proof.
  intros KD I L P LT [k1 [L1 H1]] [k2 [L2 H2]].
  assert (Ylow : interpolated (mirror args) (rev data) (- umin) (interp (mirror args) (rev data) (- umin))).
  { apply interp_inside; [apply mirror_increasing, I|rewrite mirror_length, rev_length; exact L| |].
    - exists (List.length args - 1 - k2)%nat. rewrite mirror_length. split; [lia|]. rewrite mirror_nth by lia. replace (List.length args - 1 - (List.length args - 1 - k2))%nat with k2 by lia. lra.
    - exists (List.length args - 1 - k1)%nat. rewrite mirror_length. split; [lia|]. rewrite mirror_nth by lia. replace (List.length args - 1 - (List.length args - 1 - k1))%nat with k1 by lia. lra. }
  destruct (tail_ok fit dist args data umax KD I L P) as [high [HH EH]]; [exists k2; split; assumption|].
  destruct (tail_ok fit dist (mirror args) (rev data) (- umin) KD (mirror_increasing _ I)) as [low [HL EL]]; [rewrite mirror_length, rev_length; exact L|intros d Hd; apply P, in_rev, Hd|exists (List.length args - 1 - k1)%nat; rewrite mirror_length; split; [lia|]; rewrite mirror_nth by lia; replace (List.length args - 1 - (List.length args - 1 - k1))%nat with k1 by lia; lra|].
  exists low, high, (interp (mirror args) (rev data) (- umin)), (interp args data umax). split; [apply interpolated_mirror; assumption|]. split; [apply interp_inside; [exact I|exact L|exists k1; split; [exact L1|lra]|exists k2; split; assumption]|]. split; [exact HH|]. split; [exact HL|].
  intros mid levels. split.
  - unfold levels. assert (MM : forall v, In v (map snd mid) -> umin < v < umax). { intros v Hv. apply in_map_iff in Hv. destruct Hv as [[f t] [E Hq]]. cbn [snd] in E. subst v. unfold mid in Hq. apply filter_In in Hq. destruct Hq as [_ Hq]. cbn [snd] in Hq. destruct (Rlt_dec umin t); [|discriminate]. destruct (Rlt_dec t umax); [lra|discriminate]. }
    assert (HI : forall v, In v (map (fun k => umax + INR k / 100) (seq 0 401)) -> umax <= v) by (intros v Hv; apply in_map_iff in Hv; destruct Hv as [k [<- _]]; pose proof (pos_INR k); lra).
    assert (LO : forall v, In v (map (fun k => umin - INR k / 100) (rev (seq 0 401))) -> v <= umin) by (intros v Hv; apply in_map_iff in Hv; destruct Hv as [k [<- _]]; pose proof (pos_INR k); lra).
    apply increasing_app; [| |].
    + intros i j Lij. rewrite map_length, rev_length, seq_length in Lij. assert (N : forall q, (q < 401)%nat -> nth q (map (fun k => umin - INR k / 100) (rev (seq 0 401))) 0 = umin - INR (401 - 1 - q) / 100). { intros q Hq. rewrite nth_indep with (d' := (fun k => umin - INR k / 100) 0%nat) by (rewrite map_length, rev_length, seq_length; exact Hq). rewrite (map_nth (fun k => umin - INR k / 100)), seq_rev_nth by exact Hq. reflexivity. }
      rewrite !N by lia. assert (INR (401 - 1 - j) < INR (401 - 1 - i)) by (apply lt_INR; lia). lra.
    + apply increasing_app; [apply asc_map; unfold mid; apply asc_filter, asc_combine, I| |].
      * intros i j Lij. rewrite map_length, seq_length in Lij. assert (N : forall q, (q < 401)%nat -> nth q (map (fun k => umax + INR k / 100) (seq 0 401)) 0 = umax + INR q / 100). { intros q Hq. rewrite nth_indep with (d' := (fun k => umax + INR k / 100) 0%nat) by (rewrite map_length, seq_length; exact Hq). rewrite (map_nth (fun k => umax + INR k / 100)), seq_nth by exact Hq. reflexivity. }
        rewrite !N by lia. assert (INR i < INR j) by (apply lt_INR; lia). lra.
      * intros u v Hu Hv. pose proof (MM u Hu). pose proof (HI v Hv). lra.
    + intros u v Hu Hv. pose proof (LO u Hu). apply in_app_or in Hv. destruct Hv as [Hv|Hv]; [pose proof (MM v Hv); lra|pose proof (HI v Hv); lra].
  - unfold extrapolate. destruct data as [|d0 data']; [cbn in L; lia|]. cbn [default_limit bind]. rewrite EH. cbn [bind]. fold (mirror args). rewrite EL. cbn [bind]. f_equal. unfold levels. rewrite <- !map_rev, !map_map. cbn [fst snd]. fold mid. f_equal. f_equal; [apply map_ext; intros k; lra|]. f_equal. apply map_ext. intros k. lra.
Qed.
Lemma extrapolate_default fit dist data args a b : common data args <> [] -> first_of (common data args) = Some a -> last_of (common data args) = Some b -> extrapolate fit dist data args None None = extrapolate fit dist data args (Some a) (Some b).
Proof. intros _ A B. unfold extrapolate. destruct data as [|d data]; [reflexivity|]. unfold default_limit. rewrite A, B. reflexivity. Qed.
(* counts of at most 1, as of a normalised spectrum *)
Lemma extrapolate_small fit dist data args umax : data <> [] -> (forall d, In d data -> 0 <= d <= 1) -> extrapolate fit dist data args None umax = Err ValueError.
Proof.
  intros NE P. destruct (argmaxR_spec data NE) as [L [M _]]. set (p := argmaxR data) in *. pose proof (P _ (nth_In data 0 L)) as Q. fold (at_R data p) in Q. assert (SQ : at_R data p <= sqrt (at_R data p)). { destruct (Req_dec (at_R data p) 0) as [->|N0]; [rewrite sqrt_0; lra|]. assert (S1 : sqrt (at_R data p) <= 1) by (rewrite <- sqrt_1; apply sqrt_le_1_alt; lra). pose proof (sqrt_pos (at_R data p)). rewrite <- (sqrt_sqrt (at_R data p)) at 1 by lra. nra. }
  assert (C : common data args = []). { unfold common. fold p. assert (F : forall l : list (R * R), (forall q, In q l -> fst q <= sqrt (at_R data p)) -> filter (fun ft => if Rlt_dec (sqrt (at_R data p)) (fst ft) then true else false) l = []). { induction l as [|q l IH]; intros H; [reflexivity|]. cbn [filter]. destruct (Rlt_dec (sqrt (at_R data p)) (fst q)) as [G|G]; [pose proof (H q (or_introl eq_refl)); lra|]. apply IH. intros r Hr. apply H. right. exact Hr. }
    rewrite F; [reflexivity|]. intros [f t] Hq. apply in_combine_l in Hq. cbn [fst]. apply In_nth with (d := 0) in Hq. destruct Hq as [k [Lk E]]. subst f. pose proof (M k Lk). unfold at_R in *. lra. }
  unfold extrapolate. destruct data as [|d data]; [contradiction|]. unfold default_limit at 1. rewrite C. reflexivity.
Qed.
Lemma extrapolate_beyond fit dist data args umin umax : data <> [] -> List.length data = List.length args -> (forall v, In v args -> v <= umax) -> extrapolate fit dist data args (Some umin) (Some umax) = Err IndexError.
Proof.
  intros NE L H. unfold extrapolate. destruct data as [|d data]; [contradiction|]. cbn [default_limit bind]. unfold tail. assert (F : filter (fun ft => if Rlt_dec umax (snd ft) then true else false) (combine (d :: data) args) = []); [|rewrite F; reflexivity].
  assert (Q : forall q, In q (combine (d :: data) args) -> snd q <= umax) by (intros [f t] Hq; apply in_combine_r in Hq; apply H, Hq). revert Q. generalize (combine (d :: data) args). induction l as [|q l IH]; intros Q; [reflexivity|]. cbn [filter]. destruct (Rlt_dec umax (snd q)) as [G|G]; [pose proof (Q q (or_introl eq_refl)); lra|]. apply IH. intros r Hr. apply Q. right. exact Hr.
Qed.
Lemma init_few polyfit data args mean sigma : data <> [] -> (List.length args <= 20)%nat -> mean = None \/ sigma = None -> init polyfit data args mean sigma = Err TypeError.
Proof. intros NE L H. unfold init. destruct data as [|d data]; [contradiction|]. destruct mean, sigma; try (destruct H; discriminate); rewrite estimate_few by exact L; reflexivity. Qed.
Lemma extrapolate_unknown fit dist data args umin umax : ~ known dist -> (forall d, In d data -> 0 <= d) -> increasingR args -> List.length data = List.length args -> (exists k, (k < List.length args)%nat /\ umax < nth k args 0) -> extrapolate fit dist data args (Some umin) (Some umax) = Err NotImplementedError.
Proof.
  intros NK P I L U. destruct (tail_ok fit "gen" args data umax (or_introl eq_refl) I L P U) as [x [_ E]]. unfold extrapolate. destruct data as [|d data]; [destruct U as [k [Lk _]]; cbn in L; lia|]. cbn [default_limit bind]. assert (T : tail fit dist args (d :: data) umax = Err NotImplementedError); [|rewrite T; reflexivity].
  unfold tail in E |- *. destruct (make_increasing _) as [l|e]; [|discriminate E]. cbn [bind] in E |- *. destruct (sample umax 0 l) as [y|e]; [|discriminate E]. cbn [bind]. unfold known in NK. destruct (starts dist "gen"); [exfalso; apply NK; auto|]. destruct (starts dist "exp"); [exfalso; apply NK; auto|]. destruct (starts dist "ray"); [exfalso; apply NK; auto|]. destruct (starts dist "trun"); [exfalso; apply NK; auto|]. reflexivity.
Qed.
