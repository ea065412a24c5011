(* Adaptive discretisation: one round. *)
From Coq Require Import Reals List ZArith Lra Lia Bool Permutation Sorted.
From Verif Require Import Base FilterModel GridModel KdeModel ProcModel DiscModel DiscSpec DiscProofs.
Import ListNotations.
Local Open Scope R_scope.

(* sorting *)
Lemma insert_perm p l : Permutation (p :: l) (insert_point p l).
Proof. induction l as [|q l IH]; cbn; [reflexivity|]. destruct (Rle_dec (fst p) (fst q)); [reflexivity|]. rewrite perm_swap. constructor. exact IH. Qed.
Lemma sort_perm l : Permutation l (sort_points l).
Proof. induction l as [|p l IH]; cbn; [reflexivity|]. rewrite <- insert_perm. constructor. exact IH. Qed.
Definition lep (p q : point) : Prop := fst p <= fst q.
Lemma insert_sorted p l : StronglySorted lep l -> StronglySorted lep (insert_point p l).
Proof.
  induction 1 as [|q l Sl IH F]; cbn; [repeat constructor|]. destruct (Rle_dec (fst p) (fst q)) as [L|L].
  - constructor; [constructor; assumption|]. constructor; [exact L|]. eapply Forall_impl; [|exact F]. intros r R. unfold lep in *. lra.
  - constructor; [exact IH|]. eapply Permutation_Forall; [apply insert_perm|]. constructor; [unfold lep; lra|exact F].
Qed.
Lemma sort_sorted l : StronglySorted lep (sort_points l).
Proof. induction l as [|p l IH]; cbn; [constructor|]. apply insert_sorted. exact IH. Qed.
Lemma sorted_increasing l : StronglySorted lep l -> NoDup (map fst l) -> increasing (map fst l).
Proof.
  induction 1 as [|p l Sl IH F]; intros D i L; [cbn in L; lia|]. cbn [map] in *. inversion D as [|? ? NI D']; subst. destruct i as [|i].
  - destruct l as [|q l]; [cbn in L; lia|]. cbn [map nth]. inversion F as [|? ? Q _]; subst. unfold lep in Q. cbn [map In] in NI. destruct (Req_dec (fst p) (fst q)); [|lra]. exfalso. apply NI. left. symmetry. assumption.
  - apply (IH D' i). cbn [List.length] in L. lia.
Qed.

(* the marked points *)
Definition mk (tol : R) (e : list R) (i : nat) : Prop := tol < nth i e 0.
Lemma in_marked tol e i : 0 <= tol -> In i (marked tol e) <-> mk tol e i.
Proof.
  intros P. unfold marked, mk. rewrite filter_In, in_seq. unfold gtb. destruct (Rlt_dec tol (nth i e 0)) as [M|M].
  - split; [intros _; exact M|]. intros _. split; [|reflexivity]. destruct (Nat.lt_ge_cases i (List.length e)); [lia|]. rewrite nth_overflow in M by lia. lra.
  - split; [intros [_ Q]; discriminate|]. intros Q. contradiction.
Qed.
Lemma marked_sorted tol e : StronglySorted lt (marked tol e).
Proof.
  unfold marked. generalize 0%nat as s. generalize (List.length e) as n. induction n as [|n IH]; intros s; [constructor|]. cbn [seq filter]. destruct (gtb (nth s e 0) tol); [|apply IH]. constructor; [apply IH|].
  apply Forall_forall. intros j J. apply filter_In in J. destruct J as [J _]. apply in_seq in J. lia.
Qed.
(* the intervals that are halved *)
Definition gaps (ix : list nat) : list nat := flat_map (fun i => [(i - 1)%nat; i]) ix.
Definition mid (x : list R) (g : nat) : R := (nth g x 0 + nth (S g) x 0) / 2.
Lemma geti_ok (l : list R) i : (i < List.length l)%nat -> geti l i = Ok (nth i l 0).
Proof. intros H. unfold geti. rewrite (nth_error_nth' l 0 H). reflexivity. Qed.
Lemma middles_ok x i : (1 <= i)%nat -> (S i < List.length x)%nat -> middles x i = Ok [mid x (i - 1); mid x i].
Proof.
  intros A B. unfold middles. rewrite geti_ok by lia. cbn [bind]. unfold getz. destruct (Z.leb_spec 0 (Z.of_nat i - 1)); [|lia]. replace (Z.to_nat (Z.of_nat i - 1)) with (i - 1)%nat by lia.
  rewrite geti_ok by lia. cbn [bind]. rewrite geti_ok by lia. cbn [bind]. unfold mid. replace (S (i - 1)) with i by lia. replace (i + 1)%nat with (S i) by lia. do 2 f_equal; [|f_equal]; lra.
Qed.
Lemma middles_all x ix : (forall i, In i ix -> (1 <= i)%nat /\ (S i < List.length x)%nat) ->
  exists ys, all_ok (map (middles x) ix) = Ok ys /\ concat ys = map (mid x) (gaps ix).
Proof.
  induction ix as [|i ix IH]; intros H; [exists []; split; reflexivity|]. destruct IH as [ys [E C]]; [intros; apply H; right; assumption|].
  destruct (H i ltac:(left; reflexivity)) as [A B]. cbn [map all_ok]. rewrite middles_ok by assumption. cbn [bind]. rewrite E. cbn [bind]. eexists. split; [reflexivity|]. cbn [concat gaps flat_map map app]. rewrite C. reflexivity.
Qed.
Lemma gaps_sorted ix : StronglySorted lt ix -> (forall i, In i ix -> (1 <= i)%nat /\ ~ In (S i) ix) -> StronglySorted lt (gaps ix).
Proof.
  induction 1 as [|i ix Sx IH F]; intros H; [constructor|]. cbn [gaps flat_map app]. fold (gaps ix).
  assert (G : Forall (fun g => (i < g)%nat) (gaps ix)).
  { apply Forall_forall. intros g Hg. unfold gaps in Hg. apply in_flat_map in Hg. destruct Hg as [j [J Hg]]. rewrite Forall_forall in F. assert (Lj := F j J).
    assert (j <> S i) by (intros ->; destruct (H i ltac:(left; reflexivity)) as [_ N]; apply N; right; exact J). destruct Hg as [<-|[<-|[]]]; lia. }
  destruct (H i ltac:(left; reflexivity)) as [Pi _].
  constructor; [constructor|].
  - apply IH. intros j J. destruct (H j ltac:(right; exact J)) as [A B]. split; [exact A|]. intros Q. apply B. right. exact Q.
  - exact G.
  - constructor; [lia|]. eapply Forall_impl; [|exact G]. cbv beta. intros; lia.
Qed.

Definition Inv (f : R -> R) (tol : R) (x fx e : list R) (err : R) : Prop :=
  increasing x /\ fx = map f x /\ (List.length e <= List.length x)%nat /\
  (forall i, mk tol e i -> (1 <= i)%nat /\ (S i < List.length x)%nat /\ ~ mk tol e (S i)) /\
  (tol < err -> exists i, mk tol e i).
Definition marks_of (tol : R) (x e : list R) (t : R) : Prop := exists i, (i < List.length x)%nat /\ nth i x 0 = t /\ mk tol e i.

Lemma in_gaps tol e g : 0 <= tol -> In g (gaps (marked tol e)) <-> exists i, mk tol e i /\ (g = i - 1 \/ g = i)%nat.
Proof.
  intros P. unfold gaps. rewrite in_flat_map. split.
  - intros [i [I [<-|[<-|[]]]]]; exists i; (split; [apply in_marked; assumption|]); [left|right]; reflexivity.
  - intros [i [I [->| ->]]]; exists i; (split; [apply in_marked; assumption|]); cbn; tauto.
Qed.
Lemma nodup_of_sorted (l : list nat) : StronglySorted lt l -> NoDup l.
Proof. induction 1 as [|a l Sl IH F]; constructor; [|exact IH]. intros I. rewrite Forall_forall in F. specialize (F a I). lia. Qed.
Lemma nodup_map_in {A B} (g : A -> B) l : (forall x y, In x l -> In y l -> g x = g y -> x = y) -> NoDup l -> NoDup (map g l).
Proof.
  induction l as [|a l IH]; intros H D; [constructor|]. cbn. inversion D; subst. constructor; [|apply IH; try assumption; intros; apply H; try (right; assumption); assumption].
  intros I. apply in_map_iff in I. destruct I as [b [E Ib]]. apply H in E; [subst b; contradiction|right; exact Ib|left; reflexivity].
Qed.
Lemma nodup_increasing x : increasing x -> NoDup x.
Proof.
  intros H. apply (NoDup_nth x 0). intros i j I J E. destruct (Nat.lt_trichotomy i j) as [L|[L|L]]; [|exact L|].
  - assert (Q := increasing_lt x H i j L J). lra.
  - assert (Q := increasing_lt x H j i L I). lra.
Qed.
Lemma nodup_app2 {A} (r s : list A) : (forall x, In x r -> ~ In x s) -> NoDup r -> NoDup s -> NoDup (r ++ s).
Proof.
  induction r as [|x r IHr]; intros N R Q; [exact Q|]. cbn. inversion R; subst. constructor; [|apply IHr; try assumption; intros; apply N; right; assumption].
  intros I. apply in_app_iff in I. destruct I as [I|I]; [contradiction|]. apply (N x); [left; reflexivity|exact I].
Qed.
Lemma combine_app3 (x y fx fy ex ey : list R) : List.length fx = List.length x -> List.length ex = List.length x ->
  combine (x ++ y) (combine (fx ++ fy) (ex ++ ey)) = combine x (combine fx ex) ++ combine y (combine fy ey).
Proof.
  revert fx ex. induction x as [|a x IH]; intros [|b fx] [|c ex] A B; try discriminate; [reflexivity|]. cbn. rewrite IH by (cbn in *; lia). reflexivity.
Qed.
Lemma combine_maps {A} (l : list A) (u v w : A -> R) : combine (map u l) (combine (map v l) (map w l)) = map (fun a => (u a, (v a, w a))) l.
Proof. induction l as [|a l IH]; [reflexivity|]. cbn. rewrite IH. reflexivity. Qed.
Lemma combine_old x (f : R -> R) : combine x (combine (map f x) (repeat 0 (List.length x))) = map (fun t => (t, (f t, 0))) x.
Proof. induction x as [|a l IH]; [reflexivity|]. cbn. rewrite IH. reflexivity. Qed.
Lemma rel_err_deviation tiny tol y0 y : 0 < tiny -> 0 <= tol -> rel_err tiny tol y0 y = deviation tiny tol y0 y.
Proof. intros T P. unfold rel_err, deviation. assert (B := Rabs_pos y0). assert (C := Rabs_pos y). replace 0.5 with (/ 2) by lra. unfold Rdiv. ring. Qed.

(* the value at the middle of gap g *)
Definition dev_at (f : R -> R) (tiny tol : R) (l r : R) : R := deviation tiny tol (chord f l r ((l + r) / 2)) (f ((l + r) / 2)).

Lemma one_round f tiny tol x e err : 0 < tiny -> 0 <= tol -> tol < err -> Inv f tol x (map f x) e err ->
  exists ys err' x' e', all_ok (map (middles x) (marked tol e)) = Ok ys /\
   let y := concat ys in let fy := map f y in let ey := map (fun p => rel_err tiny tol (fst p) (snd p)) (combine (map (interp x (map f x)) y) fy) in
   amax ey = Ok err' /\
   let pts := sort_points (combine (x ++ y) (combine (map f x ++ fy) (repeat 0 (List.length (map f x)) ++ ey))) in
   map fst pts = x' /\ map (fun p => fst (snd p)) pts = map f x' /\ map (fun p => snd (snd p)) pts = e' /\
   Inv f tol x' (map f x') e' err' /\ round f tiny tol x (marks_of tol x e) x' (marks_of tol x' e') err'.
Proof.
  intros T P ER [IX [_ [LE [MK NEm]]]]. set (G := gaps (marked tol e)).
  assert (HI : forall i, In i (marked tol e) -> (1 <= i)%nat /\ (S i < List.length x)%nat) by (intros i I; apply in_marked in I; [|exact P]; destruct (MK i I) as [A [B _]]; split; assumption).
  destruct (middles_all x (marked tol e) HI) as [ys [EY CY]]. exists ys. cbv zeta. rewrite CY. fold G.
  assert (SG : StronglySorted lt G).
  { apply gaps_sorted; [apply marked_sorted|]. intros i I. split; [apply HI; exact I|]. intros Q. apply in_marked in I, Q; try exact P. destruct (MK i I) as [_ [_ N]]. contradiction. }
  assert (GL : forall g, In g G -> (S g < List.length x)%nat).
  { intros g Hg. apply in_gaps in Hg; [|exact P]. destruct Hg as [i [I Hg]]. destruct (MK i I) as [A [B _]]. lia. }
  assert (GM : forall g, In g G -> nth g x 0 < mid x g < nth (S g) x 0) by (intros g Hg; unfold mid; assert (Q := IX g (GL g Hg)); lra).
  set (E := fun g => dev_at f tiny tol (nth g x 0) (nth (S g) x 0)).
  assert (EE : map (fun p => rel_err tiny tol (fst p) (snd p)) (combine (map (interp x (map f x)) (map (mid x) G)) (map f (map (mid x) G))) = map E G).
  { clear - T P IX GL GM. induction G as [|g G IH]; [reflexivity|]. cbn [map combine fst snd]. rewrite IH by (intros; try apply GL; try apply GM; right; assumption). f_equal.
    rewrite rel_err_deviation by assumption. assert (Q := GM g ltac:(left; reflexivity)). rewrite (interp_gap f x g) by (try exact IX; try (apply GL; left; reflexivity); lra). reflexivity. }
  rewrite EE.
  assert (NG : G <> []).
  { destruct (NEm ER) as [i I]. intros Q. assert (K : In i G) by (apply in_gaps; [exact P|]; exists i; split; [exact I|right; reflexivity]). rewrite Q in K. destruct K. }
  assert (NE : map E G <> []) by (destruct G; [congruence|discriminate]).
  destruct (maxR_spec _ NE) as [MI MB]. exists (maxR (map E G)).
  rewrite map_length. rewrite combine_app3 by (rewrite ?map_length, ?repeat_length; reflexivity). rewrite combine_old. rewrite (map_map (mid x) f), combine_maps.
  set (L := map (fun t => (t, (f t, 0))) x ++ map (fun g => (mid x g, (f (mid x g), E g))) G).
  assert (PL := sort_perm L). set (pts := sort_points L) in *. assert (SL : StronglySorted lep pts) by apply sort_sorted.
  assert (FL : map fst L = x ++ map (mid x) G) by (unfold L; rewrite map_app, !map_map; cbn [fst]; rewrite map_id; reflexivity).
  assert (ND : NoDup (map fst pts)).
  { eapply Permutation_NoDup; [apply Permutation_map; exact PL|]. rewrite FL. apply nodup_app2; [|apply nodup_increasing; exact IX|].
    - intros t I Q. apply in_map_iff in Q. destruct Q as [g [Eg Hg]]. apply (In_nth _ _ 0) in I. destruct I as [i [Hi Ei]]. assert (M := GM g Hg). rewrite Eg, <- Ei in M. assert (LG := GL g Hg).
      destruct (Nat.le_gt_cases i g) as [C|C]; [assert (K := increasing_le x IX i g C ltac:(lia)); lra|]. assert (K := increasing_le x IX (S g) i C Hi). lra.
    - apply nodup_map_in; [|apply nodup_of_sorted; exact SG]. intros g h Hg Hh Q. assert (A := GM g Hg). assert (B := GM h Hh). assert (LG := GL g Hg). assert (LH := GL h Hh).
      destruct (Nat.lt_trichotomy g h) as [C|[C|C]]; [|exact C|].
      + assert (K := increasing_le x IX (S g) h C ltac:(lia)). lra.
      + assert (K := increasing_le x IX (S h) g C ltac:(lia)). lra. }
  assert (IX' := sorted_increasing pts SL ND).
  exists (map fst pts), (map (fun p => snd (snd p)) pts). split; [exact EY|]. split; [apply amax_ok; exact NE|]. split; [reflexivity|].
  assert (FX : map (fun p => fst (snd p)) pts = map f (map fst pts)).
  { rewrite map_map. apply map_ext_in. intros p I. apply (Permutation_in _ (Permutation_sym PL)) in I. unfold L in I. apply in_app_iff in I. destruct I as [I|I]; apply in_map_iff in I; destruct I as [t [<- _]]; reflexivity. }
  split; [exact FX|]. split; [reflexivity|].
  set (x' := map fst pts) in *. set (e' := map (fun p => snd (snd p)) pts).
  assert (INX : forall t, In t x' <-> In t x \/ exists g, In g G /\ t = mid x g).
  { intros t. assert (Q : In t x' <-> In t (map fst L)) by (split; apply Permutation_in; [apply Permutation_map, Permutation_sym; exact PL|apply Permutation_map; exact PL]). rewrite Q, FL, in_app_iff, in_map_iff.
    split; (intros [A|[g [A B]]]; [left; exact A|right; exists g; split; try assumption; symmetry; assumption]). }
  assert (LX : List.length x' = List.length pts) by apply map_length. assert (LE' : List.length e' = List.length pts) by apply map_length.
  assert (NF : forall i, nth i x' 0 = fst (nth i pts (0, (0, 0)))) by (intros i; exact (map_nth fst pts (0, (0, 0)) i)).
  assert (NS : forall i, nth i e' 0 = snd (snd (nth i pts (0, (0, 0))))) by (intros i; exact (map_nth (fun p : point => snd (snd p)) pts (0, (0, 0)) i)).
  assert (NTH : forall i, (i < List.length pts)%nat -> In (nth i x' 0, (f (nth i x' 0), nth i e' 0)) L).
  { intros i Hi. apply (Permutation_in _ (Permutation_sym PL)). destruct (nth i pts (0, (0, 0))) as [t [u v]] eqn:EN.
    assert (HN : In (t, (u, v)) pts) by (rewrite <- EN; apply nth_In; exact Hi).
    rewrite NF, NS, EN. cbn [fst snd].
    assert (U : u = f t). { apply (Permutation_in _ (Permutation_sym PL)) in HN. unfold L in HN. apply in_app_iff in HN. destruct HN as [I|I]; apply in_map_iff in I; destruct I as [s [Q _]]; congruence. }
    rewrite <- U. exact HN. }
  assert (MK' : forall i, mk tol e' i -> (i < List.length pts)%nat /\ exists g, In g G /\ nth i x' 0 = mid x g /\ tol < E g).
  { intros i M. assert (Hi : (i < List.length pts)%nat). { destruct (Nat.lt_ge_cases i (List.length pts)) as [C|C]; [exact C|]. unfold mk in M. rewrite nth_overflow in M by lia. lra. }
    split; [exact Hi|]. assert (I := NTH i Hi). unfold L in I. apply in_app_iff in I. destruct I as [I|I]; apply in_map_iff in I.
    - destruct I as [t [Q _]]. assert (nth i e' 0 = 0) by congruence. unfold mk in M. lra.
    - destruct I as [g [Q Hg]]. exists g. split; [exact Hg|]. unfold mk in M. split; [congruence|]. replace (E g) with (nth i e' 0) by congruence. exact M. }
  assert (KM : forall g, In g G -> tol < E g -> exists i, (i < List.length pts)%nat /\ nth i x' 0 = mid x g /\ mk tol e' i).
  { intros g Hg Q. assert (I : In (mid x g, (f (mid x g), E g)) pts) by (apply (Permutation_in _ PL); unfold L; apply in_app_iff; right; apply in_map_iff; exists g; split; [reflexivity|exact Hg]).
    apply (In_nth _ _ (0, (0, 0))) in I. destruct I as [i [Hi Ei]]. exists i. split; [exact Hi|]. split.
    - exact (eq_trans (NF i) (f_equal fst Ei)).
    - unfold mk. assert (Z : nth i e' 0 = E g) by exact (eq_trans (NS i) (f_equal (fun p : point => snd (snd p)) Ei)). rewrite Z. exact Q. }
  assert (HALF : forall l r, halved x (marks_of tol x e) l r <-> exists g, In g G /\ l = nth g x 0 /\ r = nth (S g) x 0).
  { intros l r. split.
    - intros [[g [Lg [-> ->]]] M]. exists g. split; [|split; reflexivity]. apply in_gaps; [exact P|].
      assert (UN : forall i j, (i < List.length x)%nat -> (j < List.length x)%nat -> nth i x 0 = nth j x 0 -> i = j) by (intros i j; apply (proj1 (NoDup_nth x 0) (nodup_increasing x IX))).
      destruct M as [[i [Li [Ei Mi]]]|[i [Li [Ei Mi]]]].
      + exists i. split; [exact Mi|]. right. symmetry. apply UN; try assumption. lia.
      + exists i. split; [exact Mi|]. left. apply UN in Ei; lia.
    - intros [g [Hg [-> ->]]]. split; [exists g; split; [apply GL; exact Hg|split; reflexivity]|]. apply in_gaps in Hg; [|exact P]. destruct Hg as [i [Mi [Q|Q]]]; destruct (MK i Mi) as [A [B _]].
      + right. exists i. split; [lia|]. split; [|exact Mi]. f_equal. lia.
      + left. exists i. subst g. split; [lia|]. split; [reflexivity|exact Mi]. }
  split.
  - split; [exact IX'|]. split; [reflexivity|]. split; [lia|]. split.
    + intros i M. destruct (MK' i M) as [Hi [g [Hg [Ei _]]]]. assert (B := GM g Hg). assert (LG := GL g Hg).
      assert (Ilo : In (nth g x 0) x') by (apply INX; left; apply nth_In; lia). assert (Ihi : In (nth (S g) x 0) x') by (apply INX; left; apply nth_In; lia).
      apply (In_nth _ _ 0) in Ilo, Ihi. destruct Ilo as [j [Hj Ej]]. destruct Ihi as [k [Hk Ek]]. rewrite <- Ei, <- Ej, <- Ek in B.
      assert (ji : (j < i)%nat). { destruct (Nat.le_gt_cases i j) as [C|C]; [|exact C]. assert (Q := increasing_le x' IX' i j C Hj). lra. }
      assert (ik : (i < k)%nat). { destruct (Nat.le_gt_cases k i) as [C|C]; [|exact C]. assert (Q := increasing_le x' IX' k i C ltac:(lia)). lra. }
      split; [lia|]. split; [lia|]. intros M2. destruct (MK' (S i) M2) as [Hi2 [h [Hh [Ei2 _]]]]. assert (B2 := GM h Hh). rewrite <- Ei2 in B2. assert (Q := IX' i ltac:(lia)). assert (LH := GL h Hh).
      (* the gap of the next point is a later one *)
      assert (gh : (g < h)%nat). { destruct (Nat.le_gt_cases h g) as [C|C]; [|exact C]. destruct (Nat.eq_dec h g) as [->|N]; [rewrite Ei, Ei2 in Q; lra|]. assert (K := increasing_le x IX (S h) g ltac:(lia) ltac:(lia)). rewrite Ej in B. lra. }
      assert (K := increasing_le x IX (S g) h gh ltac:(lia)).
      assert (K2 : nth k x' 0 < nth (S i) x' 0) by (rewrite Ek; lra).
      assert (K3 := increasing_le x' IX' (S i) k ik Hk). lra.
    + intros Q. apply in_map_iff in MI. destruct MI as [g [Eg Hg]]. rewrite <- Eg in Q. destruct (KM g Hg Q) as [i [_ [_ M]]]. exists i. exact M.
  - unfold round. cbv zeta. split; [|split; [|split]].
    + intros t. rewrite INX. split; (intros [A|A]; [left; exact A|right]).
      * destruct A as [g [Hg ->]]. exists (nth g x 0), (nth (S g) x 0). split; [|reflexivity]. apply HALF. exists g. split; [exact Hg|split; reflexivity].
      * destruct A as [l [r [H ->]]]. apply HALF in H. destruct H as [g [Hg [-> ->]]]. exists g. split; [exact Hg|reflexivity].
    + intros t. split.
      * intros [i [Hi [<- M]]]. destruct (MK' i M) as [_ [g [Hg [-> Q]]]]. exists (nth g x 0), (nth (S g) x 0). split; [apply HALF; exists g; split; [exact Hg|split; reflexivity]|]. split; [reflexivity|exact Q].
      * intros [l [r [H [-> Q]]]]. apply HALF in H. destruct H as [g [Hg [-> ->]]]. destruct (KM g Hg Q) as [i [Hi [Ei M]]]. exists i. split; [lia|]. split; [exact Ei|exact M].
    + intros l r H. apply HALF in H. destruct H as [g [Hg [-> ->]]]. apply MB. apply in_map_iff. exists g. split; [reflexivity|exact Hg].
    + apply in_map_iff in MI. destruct MI as [g [Eg Hg]]. exists (nth g x 0), (nth (S g) x 0). split; [apply HALF; exists g; split; [exact Hg|split; reflexivity]|]. symmetry. exact Eg.
Qed.
