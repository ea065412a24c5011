From Coq Require Import Reals List ZArith Bool String Lra Lia.
From Verif Require Import Base CrossModel CrossSpec ListFacts CrossProofs TcProofs EcrossModel EcrossProofs FilterModel WparModel WparSpec WparProofs WparProofs2.
Import ListNotations.
Local Open Scope list_scope.
Local Open Scope R_scope.

Ltac fill P := repeat match type of P with ?A -> _ => match type of A with Prop => specialize (P ltac:(assumption)) end end; cbv beta zeta in P.
Tactic Notation "have" constr(L) "for" constr(m) constr(x) constr(t) constr(z) constr(tc) constr(k) "as" ident(P) :=
  first [pose proof (L m x t z tc k) as P | pose proof (L x t z tc k) as P | pose proof (L x t z k) as P | pose proof (L x z tc k) as P]; fill P.

Lemma nth_tab (f : nat -> R) k i d : (i < k)%nat -> nth i (map f (seq 0 k)) d = f i.
Proof.
  intros H. rewrite (nth_indep _ d (f 0%nat)) by (rewrite map_length, seq_length; exact H). rewrite (map_nth f), seq_nth by exact H. reflexivity.
Qed.
Lemma non_empty m x z : findcross m x 0 (Some "tw"%string) = Ok z -> (3 <= List.length z)%nat -> x <> [].
Proof. intros E L ->. destruct m; cbn in E; try discriminate E; try (injection E as <-; cbn in L; lia). Qed.

Lemma waves : forall m x t z, List.length x = List.length t -> ascending t -> findcross m x 0 (Some "tw"%string) = Ok z -> (3 <= List.length z)%nat ->
  exists w k, wave_parameters m x t = Ok w /\ (1 <= k)%nat /\ List.length z = (2 * k + 2)%nat /\
    List.length (Ac w) = k /\ List.length (At w) = S k /\ List.length (Hu w) = k /\ List.length (Hd w) = k /\ List.length (Tu w) = k /\
    List.length (Td w) = k /\ List.length (Tcf w) = k /\ List.length (Tcb w) = k /\
    forall i, (i < k)%nat -> describes x t w i (nth (2 * i) z 0%nat) (nth (2 * i + 1) z 0%nat) (nth (2 * i + 2) z 0%nat) (nth (2 * i + 3) z 0%nat).
Proof.
  intros m x t z LX AS E L. destruct (found m x z E (non_empty m x z E L) L) as [k [tc [FT [K [LZ [LT [IZ [DU [LO HI]]]]]]]]].
  exists (the_waves x t z tc k), k. split; [apply (params m x t z tc k LX AS FT LZ LT DU LO HI)|]. split; [exact K|]. split; [exact LZ|].
  cbn [the_waves Ac At Hu Hd Tu Td Tcf Tcb]. rewrite !map_length, !seq_length. do 8 (split; [reflexivity|]). intros i H.
  split; [apply DU; lia|]. split; [apply DU; lia|]. split; [replace (2 * i + 2)%nat with (2 * S i)%nat by lia; apply DU; lia|].
  split; [replace (2 * i + 3)%nat with (2 * S i + 1)%nat by lia; apply DU; lia|].
  exists (nth (2 * i) tc 0%nat), (nth (2 * i + 1) tc 0%nat), (nth (2 * S i) tc 0%nat).
  exists (cr t (map IZR x) (nth (2 * i) z 0%nat)), (cr t (map IZR x) (nth (2 * i + 1) z 0%nat)),
    (cr t (map IZR x) (nth (2 * S i) z 0%nat)), (cr t (map IZR x) (nth (2 * S i + 1) z 0%nat)).
  replace (2 * i + 2)%nat with (2 * S i)%nat by lia. replace (2 * i + 3)%nat with (2 * S i + 1)%nat by lia.
  split; [apply LO; lia|]. split; [specialize (HI i H); replace (2 * i + 2)%nat with (2 * S i)%nat in HI by lia; exact HI|]. split; [apply LO; lia|].
  split; [apply (down_zero x t z k LX AS DU i); lia|]. split; [apply (up_zero x t z k LX AS DU i); lia|].
  split; [apply (down_zero x t z k LX AS DU (S i)); lia|]. split; [apply (up_zero x t z k LX AS DU (S i)); lia|].
  cbn [the_waves Ac At Hu Hd Tu Td Tcf Tcb]. rewrite !nth_tab by lia. repeat split.
Qed.

Lemma waves_positive : forall m x t w i, List.length x = List.length t -> ascending t -> wave_parameters m x t = Ok w -> (i < List.length (Ac w))%nat ->
  0 < nth i (Ac w) 0 /\ 0 < nth i (At w) 0 /\ 0 < nth (S i) (At w) 0 /\ 0 < nth i (Tcf w) 0 /\ 0 < nth i (Tcb w) 0 /\
  nth i (Tcf w) 0 + nth i (Tcb w) 0 < nth i (Td w) 0 /\ nth i (Tcf w) 0 + nth i (Tcb w) 0 < nth i (Tu w) 0 /\
  nth i (Hd w) 0 = nth i (Ac w) 0 + nth i (At w) 0 /\ nth i (Hu w) 0 = nth i (Ac w) 0 + nth (S i) (At w) 0.
Proof.
  intros m x t w i LX AS W H. destruct (findcross m x 0 (Some "tw"%string)) as [z|e] eqn:E.
  2:{ unfold wave_parameters in W. destruct (sampling_period t); [|discriminate W]. cbn [bind] in W. unfold findtc in W. rewrite E in W. discriminate W. }
  destruct (le_lt_dec 3 (List.length z)) as [L|L].
  - destruct (found m x z E (non_empty m x z E L) L) as [k [tc [FT [K [LZ [LT [IZ [DU [LO HI]]]]]]]]].
    rewrite (params m x t z tc k LX AS FT LZ LT DU LO HI) in W. injection W as <-.
    cbn [the_waves Ac] in H. rewrite map_length, seq_length in H.
    have crest_pos for m x t z tc k as P1. specialize (P1 i H). have trough_neg for m x t z tc k as Q. pose proof (Q i ltac:(lia)) as P2.
    pose proof (Q (S i) ltac:(lia)) as P3. have front_pos for m x t z tc k as P4. specialize (P4 i H). have back_pos for m x t z tc k as P5. specialize (P5 i H).
    have zeros_up for m x t z tc k as Q'. pose proof (Q' (2 * i)%nat ltac:(lia)) as P6. pose proof (Q' (2 * i + 2)%nat ltac:(lia)) as P7.
    replace (S (2 * i)) with (2 * i + 1)%nat in P6 by lia. replace (S (2 * i + 2)) with (2 * S i + 1)%nat in P7 by lia.
    replace (2 * i + 2)%nat with (2 * S i)%nat in P5, P7 by lia.
    cbn [the_waves Ac At Hu Hd Tu Td Tcf Tcb]. rewrite !nth_tab by lia. cbv zeta in *. repeat split; lra.
  - unfold wave_parameters in W. destruct (sampling_period t); [|discriminate W]. cbn [bind] in W.
    rewrite (findtc_few m x 0%Z _ z E ltac:(lia)) in W. cbn in W. injection W as <-. cbn in H. lia.
Qed.

Lemma waves_few : forall m x t z, (2 <= List.length t)%nat -> findcross m x 0 (Some "tw"%string) = Ok z -> (List.length z <= 2)%nat ->
  exists w, wave_parameters m x t = Ok w /\ nothing w.
Proof.
  intros m x t z T E L. unfold wave_parameters. destruct t as [|a [|b t']]; [cbn in T; lia|cbn in T; lia|].
  cbn [sampling_period geti nth_error bind]. rewrite (findtc_few m x 0%Z _ z E L). cbn. eexists. split; [reflexivity|]. repeat split.
Qed.
Lemma waves_short : forall m x t k g, (List.length t < 2)%nat -> wave_parameters m x t = Err IndexError /\ wave_height_steepness m x t k g = Err IndexError.
Proof. intros m x t k g T. destruct t as [|a [|b t']]; [| |cbn in T; lia]; split; reflexivity. Qed.

Lemma speed_max a p q : 0 < a -> 0 < p -> 0 < q -> p < q -> a / q < a / p.
Proof. intros A P Q L. apply Rmult_lt_compat_l; [exact A|]. apply Rinv_lt_contravar; [apply Rmult_lt_0_compat; assumption|exact L]. Qed.

Lemma steepness : forall m x t w s g, List.length x = List.length t -> ascending t -> wave_parameters m x t = Ok w ->
  exists S H, wave_height_steepness m x t (Num (number s)) g = Ok (S, H) /\ List.length S = List.length (Ac w) /\ List.length H = List.length (Ac w) /\
  forall i, (i < List.length (Ac w))%nat ->
    documented s g (nth i (Ac w) 0) (nth i (Hd w) 0) (nth i (Hu w) 0) (nth i (Td w) 0) (nth i (Tu w) 0) (nth i (Tcf w) 0) (nth i (Tcb w) 0) (nth i S 0) (nth i H 0).
Proof.
  intros m x t w s g LX AS W. destruct (findcross m x 0 (Some "tw"%string)) as [z|e] eqn:E.
  2:{ unfold wave_parameters in W. destruct (sampling_period t); [|discriminate W]. cbn [bind] in W. unfold findtc in W. rewrite E in W. discriminate W. }
  destruct (le_lt_dec 3 (List.length z)) as [L|L].
  - destruct (found m x z E (non_empty m x z E L) L) as [k [tc [FT [K [LZ [LT [IZ [DU [LO HI]]]]]]]]].
    rewrite (params m x t z tc k LX AS FT LZ LT DU LO HI) in W. injection W as <-.
    cbn [the_waves Ac At Hu Hd Tu Td Tcf Tcb]. rewrite map_length, seq_length. unfold wave_height_steepness.
    have some_time for m x t z tc k as TT. destruct TT as [dT ->]. cbn [bind]. rewrite FT. cbn [bind fst snd].
    have values_tab for m x t z tc k as T1. have times_tab for m x t z tc k as T2. rewrite T1, T2. cbn [bind].
    rewrite !step1_odd, !step0_odd, map_map, tl_tab, removelast_tab, !both_tab.
    have ups_tab for m x t z tc k as T3. have downs_tab for m x t z tc k as T4. have ups_tab' for m x t z tc k as T5. have downs_tab' for m x t z tc k as T6.
    rewrite T3, T4, T5, T6.
    have front_pos for m x t z tc k as FP. have back_pos for m x t z tc k as BP. have crest_pos for m x t z tc k as CP.
    assert (M : forall i, (2 * S i = 2 * i + 2)%nat) by (intros; lia).
    destruct s; cbn [number defnr_of bind Z.leb Z.compare Pos.compare Pos.compare_cont Z.opp andb Z.eqb Pos.eqb]; cbn -[Rlt_dec PI no_zero seq Nat.mul Nat.add]; rewrite ?both_tab; cbn [bind];
      rewrite ?(no_zero_tab k) by (assumption || (intros; apply BP; assumption)); rewrite ?diff_tab, ?both_tab; cbn [bind]; rewrite ?both_tab; cbn [bind];
      eexists; eexists; (split; [reflexivity|]); rewrite !map_length, !seq_length; (split; [reflexivity|]); (split; [reflexivity|]); intros i H;
      rewrite !nth_tab by lia; cbn [documented fst snd]; rewrite ?M; specialize (FP i H); specialize (BP i H); specialize (CP i H); try (split; reflexivity).
    destruct (Rlt_dec _ _) as [Q|Q].
    + pose proof (speed_max _ _ _ CP FP BP Q) as V. split; [rewrite Rmax_left by lra; reflexivity|]. split; [reflexivity|]. split; [intros V'; lra|left; reflexivity].
    + destruct (Rlt_le_dec (cr t (map IZR x) (nth (2 * i + 2) z 0%nat) - instant t (nth (2 * i + 1) tc 0%nat))
                           (instant t (nth (2 * i + 1) tc 0%nat) - cr t (map IZR x) (nth (2 * i + 1) z 0%nat))) as [Q'|Q'].
      * pose proof (speed_max _ _ _ CP BP FP Q') as V. split; [rewrite Rmax_right by lra; reflexivity|]. split; [intros V'; lra|]. split; [reflexivity|right; reflexivity].
      * assert (EQ : instant t (nth (2 * i + 1) tc 0%nat) - cr t (map IZR x) (nth (2 * i + 1) z 0%nat)
                   = cr t (map IZR x) (nth (2 * i + 2) z 0%nat) - instant t (nth (2 * i + 1) tc 0%nat)) by lra.
        rewrite EQ. split; [rewrite Rmax_left by lra; reflexivity|]. split; [intros V'; lra|]. split; [reflexivity|right; reflexivity].
  - unfold wave_parameters in W. destruct (sampling_period t) as [dT|] eqn:TP; [|discriminate W]. cbn [bind] in W.
    rewrite (findtc_few m x 0%Z _ z E ltac:(lia)) in W. cbn in W. injection W as <-. exists [], []. split; [|split; [reflexivity|split; [reflexivity|cbn; intros; lia]]].
    unfold wave_height_steepness. rewrite TP. cbn [bind]. rewrite (findtc_few m x 0%Z _ z E ltac:(lia)). destruct s; reflexivity.
Qed.

Lemma by_name : forall m x t s g, wave_height_steepness m x t (Name (name s)) g = wave_height_steepness m x t (Num (number s)) g.
Proof. intros m x t s g. unfold wave_height_steepness. destruct s; reflexivity. Qed.

Lemma unknown : forall m x t w g, List.length x = List.length t -> ascending t -> wave_parameters m x t = Ok w ->
  (forall k, (forall s, k <> number s) -> wave_height_steepness m x t (Num k) g = Err UnboundLocal) /\
  (forall n, (forall s, n <> name s) -> wave_height_steepness m x t (Name n) g = Err TypeError).
Proof.
  intros m x t w g LX AS W.
  assert (G : exists dT tz a b, sampling_period t = Ok dT /\ findtc m x 0 (Some "tw"%string) = Ok tz /\ pick (map IZR x) (fst tz) = Ok a /\ pick t (fst tz) = Ok b).
  { unfold wave_parameters in W. destruct (sampling_period t) as [dT|]; [|discriminate W]. cbn [bind] in W.
    destruct (findtc m x 0 (Some "tw"%string)) as [tz|]; [|discriminate W]. cbn [bind] in W. destruct (pick (map IZR x) (fst tz)) as [a|] eqn:PA; [|discriminate W].
    cbn [bind] in W. destruct (pick t (fst tz)) as [b|] eqn:PB; [|discriminate W]. exists dT, tz, a, b. repeat split; assumption. }
  destruct G as [dT [tz [a [b [G1 [G2 [G3 G4]]]]]]]. split.
  - intros k N. unfold wave_height_steepness. rewrite G1. cbn [bind]. rewrite G2. cbn [bind]. rewrite G3. cbn [bind]. rewrite G4. cbn [bind defnr_of].
    pose proof (N Fastest) as N0. pose proof (N FrontSpeed) as N1. pose proof (N BackSpeed) as N2. pose proof (N FrontSteep) as N3.
    pose proof (N BackSteep) as N4. pose proof (N TotalDown) as N5. pose proof (N TotalUp) as N6. cbn in N0, N1, N2, N3, N4, N5, N6.
    destruct (Z.leb_spec 0 k), (Z.leb_spec k 2); cbn [andb]; try (exfalso; lia); destruct (Z.leb_spec (-2) k), (Z.leb_spec k 0); cbn [andb]; try (exfalso; lia); cbn [bind];
      repeat match goal with |- context [(k =? ?c)%Z] => destruct (Z.eqb_spec k c); [exfalso; lia|] end; reflexivity.
  - intros n N. unfold wave_height_steepness. rewrite G1. cbn [bind]. rewrite G2. cbn [bind]. rewrite G3. cbn [bind]. rewrite G4. cbn [bind defnr_of].
    pose proof (N Fastest) as N0. pose proof (N FrontSpeed) as N1. pose proof (N BackSpeed) as N2. pose proof (N FrontSteep) as N3.
    pose proof (N BackSteep) as N4. pose proof (N TotalDown) as N5. pose proof (N TotalUp) as N6. cbn [name] in N0, N1, N2, N3, N4, N5, N6.
    repeat match goal with |- context [String.eqb n ?c] => destruct (String.eqb_spec n c); [contradiction|] end. reflexivity.
Qed.
