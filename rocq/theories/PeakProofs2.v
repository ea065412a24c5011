(* findpeaks of vectors and matrices. *)
From Coq Require Import Permutation String.
From Verif Require Import Base CrossSpec CrossModel RfcSpec RfcModel ListFacts CrossProofs TpProofs TcProofs RfcTopProofs PeakModel PeakSpec AltProofs PeakProofs.
Local Open Scope list_scope.
Local Open Scope Z_scope.

Lemma extremes_scale d x : 0 < d -> (several_extremes (map (Z.mul d) x) <-> several_extremes x).
Proof.
  intros D. unfold several_extremes. split; intros [e1 [e2 [A [B N]]]]; exists e1, e2.
  - rewrite TurnsUp_scale, TurnsDown_scale in A by exact D. rewrite TurnsUp_scale, TurnsDown_scale in B by exact D. repeat split; assumption.
  - rewrite !TurnsUp_scale, !TurnsDown_scale by exact D. repeat split; assumption.
Qed.
Lemma findtp0_some m x : (2 <= List.length x)%nat -> several_extremes x -> exists t, findtp0 m x false None = Ok (Some t).
Proof.
  intros L [e1 [e2 [A [B N]]]]. destruct (findtp0_never_fails m x false None L) as [[t|] E]; [exists t; exact E|]. exfalso. apply N. exact (proj1 (findtp0_none m x L) E e1 e2 A B).
Qed.
Lemma findtp_zero mem m method x : findtp mem m method x 0 None = findtp0 m x false None.
Proof. unfold findtp, findtp0. cbn [Z.ltb Z.compare]. destruct (findtp_core m x None) as [[t|]|]; reflexivity. Qed.
Lemma row_peaks_zero mem m method den x : (2 <= List.length x)%nat -> 0 < den -> several_extremes x -> exists ind, row_peaks mem m method (0, den) x = Ok ind /\ ind <> [] /\ NoDup ind /\ forall e, In e ind <-> Peak x e.
Proof.
  intros L D SE. assert (L' : (2 <= List.length (map (Z.mul den) x))%nat) by (rewrite map_length; exact L). destruct (findtp0_some m _ L' (proj2 (extremes_scale den x D) SE)) as [t Ht]. unfold row_peaks. cbn [fst snd]. rewrite findtp_zero, Ht. cbn [bind].
  destruct (findtp0_turning_points m _ t L' Ht) as [I [L3 _]]. destruct t as [|a t]; [cbn in L3; lia|]. exists (step2 1 (a :: t)). split; [reflexivity|]. split; [|split; [apply increasing_NoDup, step2_increasing, I|]].
  - intros E. pose proof (step2_len (a :: t)) as Q. rewrite E in Q. destruct t as [|b t]; [cbn in L3; lia|]. change (List.length (@nil nat)) with 0%nat in Q. symmetry in Q. apply Nat.div_small_iff in Q; cbn [List.length] in *; lia.
  - intros e. rewrite (odd_places m _ (a :: t) e L' Ht). apply Peak_scale, D.
Qed.
Lemma argmax_ok x : x <> [] -> exists a, argmax x = Ok a /\ (a < List.length x)%nat /\ forall k, (k < List.length x)%nat -> at_ x k <= at_ x a.
Proof.
  destruct x as [|v x]; intros N; [contradiction|]. cbn [argmax]. exists (argbest_from Z.gtb v 0 1 x). split; [reflexivity|].
  assert (G : forall l pre i, pre <> [] -> (i < List.length pre)%nat -> (forall k, (k < List.length pre)%nat -> nth k pre 0 <= nth i pre 0) ->
    let a := argbest_from Z.gtb (nth i pre 0) i (List.length pre) l in (a < List.length (pre ++ l))%nat /\ forall k, (k < List.length (pre ++ l))%nat -> nth k (pre ++ l) 0 <= nth a (pre ++ l) 0).
  { induction l as [|b l IH]; intros pre i NP Hi M; cbn [argbest_from]; [rewrite app_nil_r; split; assumption|].
    assert (AP : pre ++ b :: l = (pre ++ [b]) ++ l) by (rewrite <- app_assoc; reflexivity). rewrite AP. assert (LP : List.length (pre ++ [b]) = S (List.length pre)) by (rewrite app_length; cbn; lia).
    destruct (b >? nth i pre 0) eqn:C.
    - specialize (IH (pre ++ [b]) (List.length pre)). rewrite app_nth2, Nat.sub_diag in IH by lia. cbn [nth] in IH. rewrite LP in IH. apply IH; [destruct pre; discriminate|lia|]. intros k Lk. destruct (Nat.eq_dec k (List.length pre)) as [->|]; [rewrite app_nth2, Nat.sub_diag by lia; cbn; lia|]. rewrite app_nth1 by lia. pose proof (M k ltac:(lia)). apply Z.gtb_lt in C. lia.
    - specialize (IH (pre ++ [b]) i). rewrite app_nth1 in IH by lia. rewrite LP in IH. apply IH; [destruct pre; discriminate|lia|]. intros k Lk. destruct (Nat.eq_dec k (List.length pre)) as [->|]; [rewrite app_nth2, Nat.sub_diag by lia; cbn [nth]; rewrite Z.gtb_ltb in C; apply Z.ltb_ge in C; lia|]. rewrite app_nth1 by lia. apply M. lia. }
  specialize (G x [v] 0%nat ltac:(discriminate) ltac:(cbn; lia)). cbn [List.length nth app] in G. apply G. intros k Lk. assert (k = 0%nat) by lia. subst k. lia.
Qed.
Lemma row_peaks_h mem m method num den x t : (2 <= List.length x)%nat -> 0 < num -> findtp0 m (map (Z.mul den) x) false None = Ok (Some t) -> rychlik_method method -> (mem <> [] \/ Nat.odd (List.length t) = true) ->
  exists ind, row_peaks mem m method (num, den) x = Ok ind /\ ind <> [] /\ NoDup ind /\
    ((forall e, In e ind <-> CyclePeak (map (Z.mul den) x) t mem num e) \/
     ((forall e, ~ CyclePeak (map (Z.mul den) x) t mem num e) /\ exists a, ind = [a] /\ (a < List.length x)%nat /\ forall k, (k < List.length x)%nat -> at_ x k <= at_ x a)).
Proof.
  intros L H Ht RM ME. set (z := map (Z.mul den) x) in *. assert (LZ : (2 <= List.length z)%nat) by (unfold z; rewrite map_length; exact L).
  destruct (findtp_threshold mem m method z num t LZ H Ht RM ME) as [l [El [Il [Ilt Hl]]]]. unfold row_peaks. cbn [fst snd]. fold z. rewrite El. cbn [bind]. set (y := map (at_ z) t ++ mem) in *. set (nc := (List.length t / 2)%nat) in *.
  assert (NC : (2 * nc <= List.length t)%nat) by (unfold nc; pose proof (Nat.div_mod (List.length t) 2 ltac:(lia)); lia).
  assert (Hl' : forall k, In k l <-> InRainflow y nc num k). { intros k. rewrite Hl. split; [tauto|]. intros Q. split; [|exact Q]. apply InRainflow_inside in Q. lia. }
  assert (CP : forall e, CyclePeak z t mem num e <-> exists k, In k l /\ Nat.odd k = true /\ e = nth k t 0%nat).
  { intros e. unfold CyclePeak. fold y nc. split.
    - intros [i [p [Hi [E [R D]]]]]. exists (2 * i + 1)%nat. split; [apply Hl'; exists i, p; repeat split; try assumption; left; reflexivity|]. split; [apply Nat.odd_spec; exists i; lia|exact E].
    - intros [k [IN [OK E]]]. apply Hl' in IN. destruct IN as [i [p [Hi [R [D [K|K]]]]]]; [exists i, p; subst k; repeat split; assumption|]. exfalso. rewrite K, Nat.odd_mul in OK. discriminate. }
  destruct l as [|k0 l0].
  - cbn [map]. destruct (argmax_ok x) as [a [Ea [La Ma]]]; [intros Q; rewrite Q in L; cbn in L; lia|]. rewrite Ea. cbn [bind]. exists [a]. split; [reflexivity|]. split; [discriminate|]. split; [constructor; [intros []|constructor]|]. right. split.
    + intros e C. apply CP in C. destruct C as [k [[] _]].
    + exists a. split; [reflexivity|]. split; assumption.
  - cbn [map]. change (nth k0 t 0%nat :: map (fun i => nth i t 0%nat) l0) with (map (fun i => nth i t 0%nat) (k0 :: l0)). eexists. split; [reflexivity|]. assert (OD := alternates y nc num (k0 :: l0) Il Hl').
    assert (IFF : forall e, In e (step2 1 (map (fun i => nth i t 0%nat) (k0 :: l0))) <-> CyclePeak z t mem num e) by (intros e; rewrite CP; apply odd_places_h; assumption).
    split; [|split; [apply increasing_NoDup, step2_increasing, Ilt|left; exact IFF]].
    pose proof (proj1 (Hl' k0) (or_introl eq_refl)) as [i [p [Hi [R [D _]]]]]. intros Q. assert (CPi : CyclePeak z t mem num (nth (2 * i + 1) t 0%nat)) by (exists i, p; repeat split; assumption). apply IFF in CPi. rewrite Q in CPi. destruct CPi.
Qed.
Lemma row_peaks_none mem m method num den x : (2 <= List.length x)%nat -> 0 <= num -> 0 < den -> ~ several_extremes x -> row_peaks mem m method (num, den) x = Err TypeError.
Proof.
  intros L H D NE. assert (LZ : (2 <= List.length (map (Z.mul den) x))%nat) by (rewrite map_length; exact L). assert (N0 : findtp0 m (map (Z.mul den) x) false None = Ok None).
  { apply findtp0_none; [exact LZ|]. intros e1 e2 A B. destruct (Nat.eq_dec e1 e2) as [E|E]; [exact E|]. exfalso. apply NE, (extremes_scale den x D). exists e1, e2. repeat split; assumption. }
  unfold row_peaks, findtp. cbn [fst snd]. destruct (Z.ltb_spec num 0); [lia|]. unfold findtp0 in N0. destruct (findtp_core m (map (Z.mul den) x) None) as [[t|]|]; cbn [bind] in *; [discriminate|reflexivity|discriminate].
Qed.

Lemma fold_max : forall l a, (a <= fold_left Z.max l a) /\ (forall b, In b l -> b <= fold_left Z.max l a) /\ In (fold_left Z.max l a) (a :: l).
Proof.
  induction l as [|b l IH]; intros a; cbn [fold_left]; [split; [lia|]; split; [intros b []|left; reflexivity]|]. destruct (IH (Z.max a b)) as [A [B C]]. split; [lia|]. split; [intros c [->|H]; [lia|apply B, H]|]. destruct C as [C|C]; [|right; right; exact C]. rewrite <- C. destruct (Z.max_spec a b) as [[_ ->]|[_ ->]]; [right; left; reflexivity|left; reflexivity].
Qed.
Lemma fold_min : forall l a, (fold_left Z.min l a <= a) /\ (forall b, In b l -> fold_left Z.min l a <= b) /\ In (fold_left Z.min l a) (a :: l).
Proof.
  induction l as [|b l IH]; intros a; cbn [fold_left]; [split; [lia|]; split; [intros b []|left; reflexivity]|]. destruct (IH (Z.min a b)) as [A [B C]]. split; [lia|]. split; [intros c [->|H]; [lia|apply B, H]|]. destruct C as [C|C]; [|right; right; exact C]. rewrite <- C. destruct (Z.min_spec a b) as [[_ ->]|[_ ->]]; [left; reflexivity|right; left; reflexivity].
Qed.
Lemma amax_ok l : l <> [] -> exists v, amax l = Ok v /\ largest l v.
Proof. destruct l as [|a l]; intros N; [contradiction|]. cbn [amax]. eexists. split; [reflexivity|]. destruct (fold_max l a) as [A [B C]]. split; [exact C|]. intros b [->|H]; [exact A|apply B, H]. Qed.
Lemma largest_unique l v v' : largest l v -> largest l v' -> v = v'.
Proof. intros [A B] [C D]. pose proof (B _ C). pose proof (D _ A). lia. Qed.
Lemma finish (argsort : list Z -> list nat) (P : nat -> Prop) height ind n p dmax : sorts argsort -> NoDup ind -> (forall e, In e ind <-> P e) ->
  exists top, Top P height n top /\
    match ind with [] => Ok [] | _ => Ok (if fst p >? 0 then filter (fun e => snd p * height e >? fst p * dmax) (map (fun j => nth j ind 0%nat) (upto (Z.min (Z.of_nat n) (Z.of_nat (List.length ind))) (rev (argsort (map height ind))))) else map (fun j => nth j ind 0%nat) (upto (Z.min (Z.of_nat n) (Z.of_nat (List.length ind))) (rev (argsort (map height ind))))) end = Ok (above_part height p dmax top).
Proof.
  intros SO ND IFF. destruct ind as [|e0 ind].
  - exists []. split; [|unfold above_part; destruct (fst p >? 0); reflexivity]. split; [constructor|]. split; [intros e []|]. split; [cbn; lia|]. split; [cbn; intros; lia|]. intros e Pe. exfalso. apply IFF in Pe. destruct Pe.
  - eexists. split; [exact (Top_ext _ _ height n _ IFF (top_of argsort height (e0 :: ind) n SO ND))|]. reflexivity.
Qed.
Lemma findpeaks_vector mem m method argsort x n den p : sorts argsort -> (2 <= List.length x)%nat -> several_extremes x -> 0 < den ->
  exists top dmax, largest x dmax /\ Top (Peak x) (at_ x) n top /\ findpeaks mem m method argsort (Vec x) (Z.of_nat n) (Some (0, den)) p = Ok (above_part (at_ x) p dmax top).
Proof.
  intros SO L SE D. destruct (row_peaks_zero mem m method den x L D SE) as [ind [E [_ [ND IFF]]]]. destruct (amax_ok x) as [dmax [Ed LD]]; [intros Q; rewrite Q in L; cbn in L; lia|].
  destruct (finish argsort (Peak x) (at_ x) ind n p dmax SO ND IFF) as [top [HT EQ]]. exists top, dmax. split; [exact LD|]. split; [exact HT|]. unfold findpeaks. cbn [flat]. rewrite Ed. cbn [bind]. rewrite E. cbn [bind]. exact EQ.
Qed.
Lemma findpeaks_threshold mem m method argsort x n num den p t : sorts argsort -> (2 <= List.length x)%nat -> 0 < num -> let z := map (Z.mul den) x in findtp0 m z false None = Ok (Some t) -> rychlik_method method -> (mem <> [] \/ Nat.odd (List.length t) = true) ->
  exists top dmax P, largest x dmax /\ Top P (at_ x) n top /\ findpeaks mem m method argsort (Vec x) (Z.of_nat n) (Some (num, den)) p = Ok (above_part (at_ x) p dmax top) /\
    ((forall e, P e <-> CyclePeak z t mem num e) \/ ((forall e, ~ CyclePeak z t mem num e) /\ exists a, (forall e, P e <-> e = a) /\ (a < List.length x)%nat /\ at_ x a = dmax)).
Proof.
  intros SO L H z Ht RM ME. destruct (row_peaks_h mem m method num den x t L H Ht RM ME) as [ind [E [_ [ND C]]]]. destruct (amax_ok x) as [dmax [Ed LD]]; [intros Q; rewrite Q in L; cbn in L; lia|].
  destruct (finish argsort (fun e => In e ind) (at_ x) ind n p dmax SO ND (fun e => conj (fun q => q) (fun q => q))) as [top [HT EQ]]. exists top, dmax, (fun e => In e ind). split; [exact LD|]. split; [exact HT|]. split; [unfold findpeaks; cbn [flat]; rewrite Ed; cbn [bind]; rewrite E; cbn [bind]; exact EQ|].
  destruct C as [C|[C [a [Ea [La Ma]]]]]; [left; exact C|right]. split; [exact C|]. exists a. split; [intros e; rewrite Ea; split; [intros [Q|[]]; symmetry; exact Q|intros ->; left; reflexivity]|]. split; [exact La|]. destruct LD as [LD1 LD2]. apply In_nth with (d := 0) in LD1. destruct LD1 as [k [Lk Ek]]. pose proof (Ma k Lk). assert (at_ x a <= dmax) by (apply LD2, nth_In, La). unfold at_ in *. lia.
Qed.
Lemma findpeaks_default mem m method argsort d n p dmax dmin : largest (flat d) dmax -> largest (map Z.opp (flat d)) (- dmin) ->
  findpeaks mem m method argsort d n None p = findpeaks mem m method argsort d n (Some (dmax - dmin, 20)) p.
Proof.
  intros HM Hm. unfold findpeaks. assert (NE : flat d <> []) by (intros Q; rewrite Q in HM; destruct HM as [[] _]). destruct (amax_ok (flat d) NE) as [v [E LV]]. rewrite E. cbn [bind]. rewrite (largest_unique _ _ _ LV HM).
  assert (Em : amin (flat d) = Ok dmin); [|rewrite Em; reflexivity]. destruct (flat d) as [|a l]; [contradiction|]. cbn [amin]. f_equal. destruct (fold_min l a) as [A [B C]]. destruct Hm as [M1 M2].
  assert (M3 := M2 _ (in_map Z.opp _ _ C)). apply in_map_iff in M1. destruct M1 as [u [Eu Iu]]. assert (fold_left Z.min l a <= u) by (destruct Iu as [<-|Iu]; [exact A|apply B, Iu]). lia.
Qed.
Lemma findpeaks_no_extremes mem m method argsort x n num den p : (2 <= List.length x)%nat -> 0 <= num -> 0 < den -> ~ several_extremes x -> findpeaks mem m method argsort (Vec x) n (Some (num, den)) p = Err TypeError.
Proof.
  intros L H D NE. unfold findpeaks. cbn [flat]. destruct (amax_ok x) as [dmax [Ed _]]; [intros Q; rewrite Q in L; cbn in L; lia|]. rewrite Ed. cbn [bind]. rewrite row_peaks_none by assumption. reflexivity.
Qed.
Lemma findpeaks_empty mem m method argsort n h p : findpeaks mem m method argsort (Vec []) n h p = Err ValueError.
Proof. reflexivity. Qed.
(* matrices *)
Lemma stands_out_iff rows r e : (2 <= List.length rows)%nat -> (r < List.length rows)%nat -> (stands_out rows r e = true <-> forall r', (r' < List.length rows)%nat -> (r' = S r \/ S r' = r) -> at_ (nth r' rows []) e < at_ (nth r rows []) e).
Proof.
  intros L2 Lr. unfold stands_out, above, at_. destruct (Nat.eqb_spec r 0) as [->|N0]; [|destruct (Nat.eqb_spec r (List.length rows - 1)) as [EL|NL]].
  - rewrite Z.ltb_lt. split; [intros H r' _ [->|C]; [exact H|lia]|]. intros H. apply (H 1%nat); [lia|left; reflexivity].
  - rewrite Z.ltb_lt. split; [intros H r' Lr' [->|C]; [lia|replace r' with (r - 1)%nat by lia; exact H]|]. intros H. apply (H (r - 1)%nat); [lia|right; lia].
  - rewrite andb_true_iff, !Z.ltb_lt. split; [intros [H1 H2] r' _ [->|C]; [replace (S r) with (r + 1)%nat by lia; exact H2|replace r' with (r - 1)%nat by lia; exact H1]|]. intros H. split; [apply (H (r - 1)%nat); [lia|right; lia]|apply (H (r + 1)%nat); [lia|left; lia]].
Qed.
Lemma Peak_inside x e : Peak x e -> (e < List.length x)%nat. Proof. intros [[_ [H _]]|[H _]]; lia. Qed.
Lemma NoDup_app_intro {A} (l1 l2 : list A) : NoDup l1 -> NoDup l2 -> (forall a, In a l1 -> ~ In a l2) -> NoDup (l1 ++ l2).
Proof.
  induction l1 as [|a l1 IH]; intros H1 H2 D; [exact H2|]. inversion H1 as [|? ? N1 N2]; subst. cbn [app]. constructor; [intros C; apply in_app_or in C; destruct C as [C|C]; [contradiction|exact (D a (or_introl eq_refl) C)]|]. apply IH; [exact N2|exact H2|]. intros b Hb. apply D. right. exact Hb.
Qed.
Lemma rows_peaks_ok mem m method den rows w : (2 <= List.length rows)%nat -> (2 <= w)%nat -> (forall x, In x rows -> List.length x = w /\ several_extremes x) -> 0 < den ->
  forall todo iy, skipn iy rows = todo -> (iy <= List.length rows)%nat ->
  exists ind, rows_peaks mem m method (0, den) rows w iy todo = Ok ind /\ NoDup ind /\ forall idx, In idx ind <-> exists r e, (iy <= r < List.length rows)%nat /\ idx = (e + r * w)%nat /\ Peak (nth r rows []) e /\ stands_out rows r e = true.
Proof.
  intros L2 W2 HR D. induction todo as [|x todo IH]; intros iy E Li.
  - exists []. split; [reflexivity|]. split; [constructor|]. assert (iy = List.length rows). { assert (Q := f_equal (@List.length _) E). rewrite skipn_length in Q. cbn in Q. lia. } intros idx. split; [intros []|]. intros [r [e [B _]]]. lia.
  - assert (Lt : (iy < List.length rows)%nat) by (assert (Q := f_equal (@List.length _) E); rewrite skipn_length in Q; cbn in Q; lia).
    assert (NX : nth iy rows [] = x). { rewrite <- (firstn_skipn iy rows). rewrite app_nth2 by (rewrite firstn_length; lia). rewrite firstn_length, Nat.min_l by lia. rewrite Nat.sub_diag, E. reflexivity. }
    assert (IX : In x rows) by (rewrite <- NX; apply nth_In; exact Lt). destruct (HR x IX) as [LX SE]. destruct (row_peaks_zero mem m method den x ltac:(lia) D SE) as [i0 [E0 [_ [ND0 IFF0]]]].
    assert (ET : skipn (S iy) rows = todo). { clear -E. revert rows E. induction iy as [|iy IH]; intros rows E; [cbn [skipn] in E; subst; reflexivity|]. destruct rows as [|a rows]; [discriminate|]. cbn [skipn] in *. apply IH in E. exact E. }
    destruct (IH (S iy) ET ltac:(lia)) as [rest [ER [NDR IFFR]]]. cbn [rows_peaks]. rewrite E0. cbn [bind]. destruct (Nat.eqb_spec (List.length rows) 1); [lia|]. rewrite ER. cbn [bind]. eexists. split; [reflexivity|].
    assert (IN1 : forall idx, In idx (map (fun e => (e + iy * w)%nat) (filter (stands_out rows iy) i0)) <-> exists e, idx = (e + iy * w)%nat /\ Peak x e /\ stands_out rows iy e = true).
    { intros idx. rewrite in_map_iff. split; [intros [e [Q H]]; apply filter_In in H; destruct H as [H1 H2]; exists e; split; [symmetry; exact Q|]; split; [apply IFF0; exact H1|exact H2]|intros [e [Q [H1 H2]]]; exists e; split; [symmetry; exact Q|apply filter_In; split; [apply IFF0; exact H1|exact H2]]]. }
    split.
    + apply NoDup_app_intro; [|exact NDR|].
      * apply (NoDup_filter (stands_out rows iy)) in ND0. clear -ND0. induction ND0 as [|a l N _ IH]; [constructor|]. cbn [map]. constructor; [|exact IH]. intros C. apply in_map_iff in C. destruct C as [b [Eb Hb]]. apply N. replace a with b by lia. exact Hb.
      * intros idx H1 H2. apply IN1 in H1. destruct H1 as [e [Q [Pe _]]]. apply IFFR in H2. destruct H2 as [r [e' [Br [Q' [Pe' _]]]]]. apply Peak_inside in Pe. rewrite LX in Pe. nia.
    + intros idx. rewrite in_app_iff, IN1, IFFR. split.
      * intros [[e [Q [Pe S1]]]|[r [e [B H]]]]; [exists iy, e; split; [lia|]; rewrite NX; split; [exact Q|split; assumption]|exists r, e; split; [lia|exact H]].
      * intros [r [e [B [Q [Pe S1]]]]]. destruct (Nat.eq_dec r iy) as [->|NR]; [left; exists e; rewrite NX in Pe; split; [exact Q|split; assumption]|right; exists r, e; split; [lia|split; [exact Q|split; assumption]]].
Qed.
Lemma findpeaks_matrix mem m method argsort rows w n den p : sorts argsort -> (2 <= List.length rows)%nat -> (2 <= w)%nat -> (forall x, In x rows -> List.length x = w /\ several_extremes x) -> 0 < den ->
  exists top dmax, largest (concat rows) dmax /\ Top (SurfacePeak rows w) (at_ (concat rows)) n top /\ findpeaks mem m method argsort (Mat rows) (Z.of_nat n) (Some (0, den)) p = Ok (above_part (at_ (concat rows)) p dmax top).
Proof.
  intros SO L2 W2 HR D. destruct (rows_peaks_ok mem m method den rows w L2 W2 HR D rows 0%nat eq_refl ltac:(lia)) as [ind [E [ND IFF]]].
  destruct (amax_ok (concat rows)) as [dmax [Ed LD]]. { destruct rows as [|x rows]; [cbn in L2; lia|]. destruct (HR x (or_introl eq_refl)) as [LX _]. destruct x; [cbn in LX; lia|discriminate]. }
  assert (HW : List.length (hd [] rows) = w) by (destruct rows as [|x rows]; [cbn in L2; lia|]; exact (proj1 (HR x (or_introl eq_refl)))).
  assert (IFF' : forall idx, In idx ind <-> SurfacePeak rows w idx).
  { intros idx. rewrite IFF. unfold SurfacePeak. split; intros [r [e [B [Q [Pe S1]]]]]; exists r, e; (split; [lia|]); (split; [exact Q|]); (split; [exact Pe|]); apply (stands_out_iff rows r e L2 ltac:(lia)); exact S1. }
  destruct (finish argsort (SurfacePeak rows w) (at_ (concat rows)) ind n p dmax SO ND IFF') as [top [HT EQ]]. exists top, dmax. split; [exact LD|]. split; [exact HT|]. unfold findpeaks. cbn [flat]. rewrite Ed. cbn [bind]. rewrite HW, E. cbn [bind]. exact EQ.
Qed.
Lemma findpeaks_one_row mem m method argsort x n den p : (2 <= List.length x)%nat -> several_extremes x -> 0 < den -> findpeaks mem m method argsort (Mat [x]) n (Some (0, den)) p = Err IndexError.
Proof.
  intros L SE D. unfold findpeaks. cbn [flat concat]. rewrite app_nil_r. destruct (amax_ok x) as [dmax [Ed _]]; [intros Q; rewrite Q in L; cbn in L; lia|]. rewrite Ed. cbn [bind rows_peaks hd]. destruct (row_peaks_zero mem m method den x L D SE) as [ind [E _]]. rewrite E. reflexivity.
Qed.
