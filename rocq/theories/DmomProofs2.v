From Coq Require Import Reals List ZArith Bool String Ascii Lia Lra.
From Verif Require Import Base PolyModel ProcModel ProcProofs SpectModel SpectSpec SpectProofs DmomModel DmomSpec DmomProofs.
Import ListNotations.
Local Open Scope R_scope.

Definition good (s : spec2) (nt nw : nat) (p : string * list R) (e : nat * nat * nat) : Prop :=
  let '(a, b, c) := e in e <> (0, 1, 1)%nat -> simps (snd p) (first_of (sargs2 s)) = integral s nt nw a b c.
Lemma when_F2 {A B} (P : A -> B -> Prop) b l l' : Forall2 P l l' -> Forall2 P (when b l) (when b l').
Proof. destruct b; cbn; auto. Qed.
Ltac one D := constructor; [cbn [good]; intros _; apply (term_value _ _ _ _ _ _ _ _ _ D); intros; unfold Rdiv; ring|].
Ltac part D := first [apply Forall2_app; [apply when_F2; repeat (one D); constructor|]].
Lemma terms_good s nt nw nr x y t : directional s nt nw ->
  Forall2 (good s nt nw) (moment_terms (first_of (sargs2 s)) (angles s) (rows s) (gx s) (gy s) nr x y t) (exps nr x y t).
Proof.
  intros D. assert (LW : List.length (first_of (sargs2 s)) = nw) by (destruct D as [_ [_ [_ [L _]]]]; exact L).
  unfold moment_terms, exps. cbv zeta. rewrite LW.
  apply when_F2. do 3 part D. apply when_F2. do 5 part D.
  apply Forall2_app; [apply when_F2; constructor; [intros N; contradiction|constructor]|].
  apply when_F2. do 6 part D. apply when_F2. repeat (one D). constructor.
Qed.
Lemma zero_value s nt nw : directional s nt nw -> simps (over_angles (rows s) (angles s) nw (fun _ => 1)) (first_of (sargs2 s)) = integral s nt nw 0 0 0.
Proof.
  intros D. pose proof D as [_ [T1 [W1 [LW [LT LR]]]]]. assert (LO : List.length (over_angles (rows s) (angles s) nw (fun _ => 1)) = nw) by (unfold over_angles; rewrite map_length, seq_length; reflexivity).
  rewrite (simps_value _ _ nw) by lia. unfold integral. apply simpson_ext; [exact W1|reflexivity|]. intros j J. rewrite (over_value s nt nw _ j D J). apply simpson_ext; [exact T1|reflexivity|]. intros i I. cbn. ring.
Qed.
Lemma moment_form s nt nw nr v : directional s nt nw -> v <> EmptyString ->
  moment2 s nr (Some v) = Ok (simps (over_angles (rows s) (angles s) nw (fun _ => 1)) (first_of (sargs2 s)) ::
    map (fun p => simps (snd p) (first_of (sargs2 s))) (moment_terms (first_of (sargs2 s)) (angles s) (rows s) (gx s) (gy s) nr (mentions "x" v) (mentions "y" v) (mentions "t" v)),
    map word ((0, 0, 0)%nat :: exps nr (mentions "x" v) (mentions "y" v) (mentions "t" v))).
Proof.
  intros D N. pose proof D as [T [_ [_ [LW _]]]]. unfold moment2. assert (B : (String.eqb (stype s) "dir" || String.eqb (stype s) "encdir" || String.eqb (stype s) "k2d")%bool = true /\ String.eqb (stype s) "k2d" = false) by (destruct T as [-> | ->]; split; reflexivity).
  destruct B as [-> ->]. cbn [negb]. destruct v as [|c v]; [contradiction|]. cbn [variables bind]. cbn [map word]. rewrite <- exps_names with (w := first_of (sargs2 s)) (th := angles s) (S := rows s) (gx := gx s) (gy := gy s).
  rewrite LW. reflexivity.
Qed.
Lemma F2_nth {A B} (P : A -> B -> Prop) l l' da db : Forall2 P l l' -> List.length l = List.length l' /\ forall i, (i < List.length l)%nat -> P (nth i l da) (nth i l' db).
Proof. induction 1 as [|a b l l' H F [L IH]]; cbn; split; auto; try lia. intros [|i] Hi; [exact H|apply IH; lia]. Qed.
Lemma moments_ok : forall s nt nw nr v, directional s nt nw -> v <> EmptyString ->
  exists m es, moment2 s nr (Some v) = Ok (m, map word es) /\ List.length m = List.length es /\ NoDup es /\
    (forall e, In e es <-> wanted nr (mentions "x" v) (mentions "y" v) (mentions "t" v) e) /\
    forall i a b c, (i < List.length es)%nat -> nth i es (0, 0, 0)%nat = (a, b, c) -> (a, b, c) <> (0, 1, 1)%nat -> nth i m 0 = integral s nt nw a b c.
Proof.
  intros s nt nw nr v D N. rewrite (moment_form s nt nw nr v D N). do 2 eexists. split; [reflexivity|].
  pose proof (terms_good s nt nw nr (mentions "x" v) (mentions "y" v) (mentions "t" v) D) as F. destruct (F2_nth _ _ _ (EmptyString, []) (0, 0, 0)%nat F) as [L V].
  split; [cbn [List.length]; rewrite map_length, L; reflexivity|]. split; [apply exps_nodup|]. split; [intros e; apply exps_wanted|].
  intros [|i] a b c I E NE; cbn [nth] in *.
  - injection E as <- <- <-. apply (zero_value s nt nw D).
  - cbn [List.length] in I. set (ts := moment_terms _ _ _ _ _ _ _ _ _) in *. rewrite (nth_indep _ 0 (simps (snd (EmptyString, @nil R)) (first_of (sargs2 s)))) by (rewrite map_length, L; lia).
    rewrite (map_nth (fun p => simps (snd p) (first_of (sargs2 s)))). specialize (V i ltac:(rewrite L; lia)). rewrite E in V. cbn [good] in V. apply V. exact NE.
Qed.
Lemma moments_default : forall s nr, moment2 s nr None = moment2 s nr (Some (if (nr <=? 1)%Z then "x" else "xt")%string).
Proof. intros s nr. unfold moment2, variables. destruct (nr <=? 1)%Z; reflexivity. Qed.
Lemma moments_errors : forall s nr v, (stype s <> "dir" -> stype s <> "encdir" -> stype s <> "k2d" -> moment2 s nr v = Err ValueError)%string /\
  ((stype s = "dir" \/ stype s = "encdir")%string -> moment2 s nr (Some EmptyString) = Err IndexError).
Proof.
  intros s nr v. split.
  - intros A B C. unfold moment2. apply String.eqb_neq in A, B, C. rewrite A, B, C. reflexivity.
  - intros T. unfold moment2. destruct T as [-> | ->]; reflexivity.
Qed.
Lemma moments_k2d : forall s nr v, stype s = "k2d"%string -> v <> Some EmptyString -> moment2 s nr v = Err AttributeError.
Proof. intros s nr v E N. unfold moment2. rewrite E. cbn [String.eqb Ascii.eqb orb negb]. destruct v as [[|c v]|]; [contradiction| |]; reflexivity. Qed.
(* case does not matter, nor the order of the letters *)
Lemma letters : forall s nr v v', v <> EmptyString -> v' <> EmptyString ->
  (forall c, In c ["x"; "y"; "t"]%char -> mentions c v = mentions c v') -> moment2 s nr (Some v) = moment2 s nr (Some v').
Proof.
  intros s nr v v' N N' E. unfold moment2, variables. destruct v as [|c v]; [contradiction|]. destruct v' as [|c' v']; [contradiction|]. cbn [bind].
  rewrite (E "x"%char), (E "y"%char), (E "t"%char) by (cbn; auto). reflexivity.
Qed.
(* what is returned as myt *)
Lemma myt_value : forall s nt nw nr v m text i, directional s nt nw -> moment2 s nr (Some v) = Ok (m, text) -> nth i text ""%string = "myt"%string -> gx s <> 0 -> gy s <> 0 ->
  nth i m 0 = gx s / gy s * integral s nt nw 1 0 1.
Proof.
  intros s nt nw nr v m text i D E T GX GY. assert (N : v <> EmptyString) by (intros ->; destruct D as [TY _]; rewrite (proj2 (moments_errors s nr None) TY) in E; discriminate).
  pose proof (moment_form s nt nw nr v D N) as F. rewrite E in F. apply (f_equal (fun r => match r with Ok p => p | Err _ => ([], []) end)) in F. cbn beta iota in F.
  assert (EM := f_equal fst F). assert (ET := f_equal snd F). cbn [fst snd] in EM, ET. rewrite EM. clear EM. rewrite ET in T. clear F ET.
  assert (K : forall X Y T', let ts := moment_terms (first_of (sargs2 s)) (angles s) (rows s) (gx s) (gy s) nr X Y T' in
    Forall (fun p => fst p = "myt"%string -> simps (snd p) (first_of (sargs2 s)) = gx s / gy s * integral s nt nw 1 0 1) ts).
  { intros X Y T'. cbv zeta. assert (LW : List.length (first_of (sargs2 s)) = nw) by (destruct D as [_ [_ [_ [L _]]]]; exact L).
    assert (ONE : simps (snd (term (first_of (sargs2 s)) "myt" (fun w => w ^ 2 / gy s * w) (over_angles (rows s) (angles s) nw cos))) (first_of (sargs2 s)) = gx s / gy s * integral s nt nw 1 0 1).
    { pose proof D as [_ [T1 [W1 [_ [LT LR]]]]]. unfold term. cbn [snd]. assert (LO : List.length (over_angles (rows s) (angles s) nw cos) = nw) by (unfold over_angles; rewrite map_length, seq_length; reflexivity).
      rewrite (simps_value _ _ nw) by (rewrite ?len_map2; lia). unfold integral. rewrite <- simpson_scale. apply simpson_ext; [exact W1|reflexivity|]. intros j J.
      rewrite (at_map2 _ 0) by lia. rewrite (over_value s nt nw cos j D J). rewrite <- !simpson_scale. apply simpson_ext; [exact T1|reflexivity|]. intros k I.
      unfold freq. change (nth j (first_of (sargs2 s)) 0) with (at_R (first_of (sargs2 s)) j). field. split; assumption. }
    unfold moment_terms, when. cbv zeta. rewrite LW. destruct (0 <? nr)%Z, (1 <? nr)%Z, (3 <? nr)%Z, X, Y, T'; cbn [app andb]; repeat (constructor; [unfold term at 1; cbn [fst]; first [discriminate | intros _; exact ONE]|]); constructor. }
  specialize (K (mentions "x" v) (mentions "y" v) (mentions "t" v)). cbv zeta in K. rewrite <- exps_names with (w := first_of (sargs2 s)) (th := angles s) (S := rows s) (gx := gx s) (gy := gy s) in T || (cbn [map] in T; rewrite <- exps_names with (w := first_of (sargs2 s)) (th := angles s) (S := rows s) (gx := gx s) (gy := gy s) in T).
  set (ts := moment_terms _ _ _ _ _ _ _ _ _) in *. destruct i as [|i]; [discriminate|]. cbn [nth] in *. rewrite Forall_forall in K.
  destruct (Nat.lt_ge_cases i (List.length ts)) as [I|I].
  - rewrite (nth_indep _ 0 (simps (snd (""%string, @nil R)) (first_of (sargs2 s)))) by (rewrite map_length; lia). rewrite (map_nth (fun p => simps (snd p) (first_of (sargs2 s)))).
    apply K; [apply nth_In; exact I|]. change ""%string with (fst (""%string, @nil R)) in T. rewrite map_nth in T. exact T.
  - rewrite nth_overflow in T by (rewrite map_length; lia). discriminate.
Qed.
(* turning the directions *)
Lemma second_order : forall s nt nw phi, (1 <= nt)%nat -> (1 <= nw)%nat -> gx s = gy s ->
  integral s nt nw 2 0 0 + integral s nt nw 0 2 0 = integral (turned s phi) nt nw 2 0 0 + integral (turned s phi) nt nw 0 2 0.
Proof.
  intros s nt nw phi T1 W1 G. unfold integral, turned. cbn [sphi gx gy]. change (freq (Spec2 (stype s) (rows s) (sargs2 s) phi (gx s) (gy s))) with (freq s). change (angle (Spec2 (stype s) (rows s) (sargs2 s) phi (gx s) (gy s))) with (angle s).
  change (dens (Spec2 (stype s) (rows s) (sargs2 s) phi (gx s) (gy s))) with (dens s). rewrite G.
  assert (A : forall F H : nat -> R, simpson nw (freq s) F + simpson nw (freq s) H = simpson nw (freq s) (fun j => F j + H j)).
  { intros F H. transitivity (simpson nw (freq s) (fun j => 1 * F j + 1 * H j)); [rewrite simpson_linear; ring|]. apply simpson_ext; auto. intros; ring. }
  assert (B : forall F H : nat -> R, simpson nt (angle s) F + simpson nt (angle s) H = simpson nt (angle s) (fun j => F j + H j)).
  { intros F H. transitivity (simpson nt (angle s) (fun j => 1 * F j + 1 * H j)); [rewrite simpson_linear; ring|]. apply simpson_ext; auto. intros; ring. }
  rewrite !A. apply simpson_ext; [exact W1|reflexivity|]. intros j J. rewrite !B. apply simpson_ext; [exact T1|reflexivity|]. intros i I. cbn [pow].
  assert (P : forall z, (freq s j * (freq s j * 1) / gy s * cos z * (freq s j * (freq s j * 1) / gy s * cos z * 1) * 1 * 1 * dens s i j + 1 * (freq s j * (freq s j * 1) / gy s * sin z * (freq s j * (freq s j * 1) / gy s * sin z * 1)) * 1 * dens s i j) = (freq s j * freq s j / gy s) * (freq s j * freq s j / gy s) * dens s i j).
  { intros z. pose proof (sin2_cos2 z) as Q. unfold Rsqr in Q. transitivity ((freq s j * freq s j / gy s) * (freq s j * freq s j / gy s) * dens s i j * (sin z * sin z + cos z * cos z)); [unfold Rdiv; ring|rewrite Q; ring]. }
  rewrite !P. reflexivity.
Qed.
