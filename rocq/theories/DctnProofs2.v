From Coq Require Import Reals ZArith Lra Lia List Bool.
From Verif Require Import Base PolyModel OrthoModel OrthoProofs QuadProofs2 SplineProofs ShiftModel ShiftSpec ShiftProofs DctnModel DctnSpec DctnProofs.
Import ListNotations.
Local Open Scope R_scope.

Lemma axis_bound axes i d : axis_index d axes = Some i -> (i < List.length axes)%nat /\ nth i axes 0%Z = d.
Proof.
  revert i. induction axes as [|a axes IH]; intros i H; [discriminate|]. cbn [axis_index] in H. destruct (Z.eqb_spec a d) as [E|E].
  - assert (i = 0%nat) by congruence. subst. cbn. split; [lia|reflexivity].
  - destruct (axis_index d axes) as [j|]; [|discriminate]. assert (i = S j) by (cbn in H; congruence). subst. destruct (IH j eq_refl). cbn. split; [lia|assumption].
Qed.
Lemma new_shape_length new axes Q : forall dim, List.length (new_shape new axes dim Q) = List.length Q.
Proof. induction Q as [|m Q IH]; intros dim; [reflexivity|]. cbn. now rewrite IH. Qed.
Lemma new_shape_nth new axes Q : forall dim d, (d < List.length Q)%nat -> nth d (new_shape new axes dim Q) 0%nat = match axis_index (Z.of_nat (dim + d)) axes with None => nth d Q 0%nat | Some i => nth i new 0%nat end.
Proof.
  induction Q as [|m Q IH]; intros dim d H; [cbn in H; lia|]. destruct d as [|d]; cbn [new_shape nth]; [now rewrite Nat.add_0_r|]. rewrite IH by (cbn in H; lia). now replace (S dim + d)%nat with (dim + S d)%nat by lia.
Qed.
Lemma raw_ok C x new axes new' axes' : array_ok x -> shape x <> [] -> get_shape (shape x) new axes = Ok new' -> get_axes (List.length (shape x)) new' axes = Ok axes' ->
  (forall d i, (d < List.length (shape x))%nat -> axis_index (Z.of_nat d) axes' = Some i -> (1 <= nth i new' 0)%nat) ->
  exists y, raw_dctn C x new axes = Ok y /\ array_ok y /\ shape y = new_shape new' axes' 0 (shape x) /\ forall idx, index_of (shape y) idx -> item y idx = Some (transformed C (on axes') 0 (shape y) idx (entry x)).
Proof.
  intros A N GS GA H. unfold raw_dctn. rewrite GS. cbn [bind]. rewrite GA. cbn [bind]. destruct (shape x) as [|m [|m2 Q]] eqn:Sx; [congruence| |].
  - (* one axis *)
    cbn [List.length each_axis]. set (y0 := nd [m; 1%nat] (elements x)). assert (A0 : array_ok y0) by (unfold array_ok, y0; cbn [elements shape product]; rewrite A, Sx; cbn; lia).
    destruct (shift_spec y0 1 A0) as (y1 & E1 & A1 & S1 & I1). change (Z.of_nat 1) with 1%Z in E1. rewrite E1. cbn [bind]. change (shape y0) with [m; 1%nat] in S1, I1. change (left_shift 1 [m; 1%nat]) with [1%nat; m] in S1.
    assert (V1 : forall j, (j < m)%nat -> item y1 [0%nat; j] = Some (entry x [j])). { intros j Hj. change [0%nat; j] with (left_shift 1 [j; 0%nat]). rewrite I1 by (repeat constructor; lia). rewrite <- (entry_item x [j]) by (try exact A; rewrite Sx; repeat constructor; exact Hj). unfold item, y0. cbn [shape elements]. rewrite Sx. cbn [position product]; reflexivity. }
    destruct (axis_index (Z.of_nat 0) axes') as [i|] eqn:AI.
    + set (n := nth i new' 0%nat). assert (N1 : (1 <= n)%nat) by (apply (H 0%nat i); [cbn; lia|exact AI]).
      destruct (along_ok C n y1 [1%nat] m (fun p j => entry x [j]) A1 S1 N1) as (y2 & E2 & A2 & S2 & I2).
      { intros p j Hp Hj. inversion Hp as [|a ? ? ? Ha Hb]; subst. inversion Hb; subst. assert (a = 0%nat) by lia. subst a. now apply V1. }
      cbn [bind]. rewrite E2. cbn [bind]. unfold upd. cbn [firstn skipn app]. unfold reshape. assert (L2 : List.length (elements y2) = n) by (rewrite A2, S2; cbn; lia). rewrite L2. cbn [product]. rewrite Nat.mul_1_r, Nat.eqb_refl.
      assert (NS : new_shape new' axes' 0 [m] = [n]) by (cbn [new_shape]; now rewrite AI). eexists. split; [reflexivity|]. cbn [shape elements]. split; [unfold array_ok; cbn [elements shape product]; lia|]. split; [now rewrite NS|]. intros idx Hi. inversion Hi as [|k ? ? ? Hk Hb]; subst. inversion Hb; subst.
      specialize (I2 [0%nat] k ltac:(repeat constructor) Hk). unfold item in *. rewrite S2 in I2. cbn [app position product shape elements] in *. replace (0 * (n * 1) + (k * 1 + 0))%nat with (k * 1 + 0)%nat in I2 by lia. rewrite I2. f_equal. cbn [transformed]. assert (O : on axes' 0 = true) by (unfold on; now rewrite AI). rewrite O. apply vsum_ext. intros j Hj. f_equal. destruct (j <? m) eqn:J; [reflexivity|]. symmetry. apply entry_out. rewrite Sx. cbn [inside]. now rewrite J.
    + cbn [bind]. unfold reshape. assert (L1 : List.length (elements y1) = m) by (rewrite A1, S1; cbn; lia). rewrite L1. cbn [product]. rewrite Nat.mul_1_r, Nat.eqb_refl. assert (NS : new_shape new' axes' 0 [m] = [m]) by (cbn [new_shape]; now rewrite AI). eexists. split; [reflexivity|]. cbn [shape elements]. split; [unfold array_ok; cbn [elements shape product]; lia|]. split; [now rewrite NS|]. intros idx Hi. inversion Hi as [|k ? ? ? Hk Hb]. inversion Hb. subst idx. clear Hi Hb. specialize (V1 k Hk). unfold item in *. rewrite S1 in V1. cbn [app position product shape elements] in *. replace (0 * (m * 1) + (k * 1 + 0))%nat with (k * 1 + 0)%nat in V1 by lia. rewrite V1. f_equal. cbn [transformed]. assert (O : on axes' 0 = false) by (unfold on; now rewrite AI). rewrite O. reflexivity.
  - rewrite <- Sx in *. destruct (loop_ok C new' axes' (entry x) (shape x) [] [] x A) as (y & E & Ay & Sy & Iy).
    + now rewrite app_nil_r.
    + reflexivity.
    + intros js Hj. now apply entry_out.
    + intros q p Hq Hp. inversion Hp; subst. rewrite app_nil_r. rewrite entry_item by assumption. reflexivity.
    + intros d i Hd. apply H. cbn in Hd. lia.
    + cbn [List.length app] in E, Sy. rewrite E. cbn [bind]. unfold reshape. rewrite Ay, Sy, Nat.eqb_refl. eexists. split; [reflexivity|]. assert (Ey : nd (new_shape new' axes' 0 (shape x)) (elements y) = y) by (rewrite <- Sy; now destruct y). rewrite Ey. split; [exact Ay|]. split; [exact Sy|exact Iy].
Qed.

(* ---- axes that are listed ---- *)
Lemma axis_seq d : forall c a, (a <= d < a + c)%nat -> axis_index (Z.of_nat d) (map Z.of_nat (seq a c)) = Some (d - a)%nat.
Proof.
  induction c as [|c IH]; intros a H; [lia|]. cbn [seq map axis_index]. destruct (Z.eqb_spec (Z.of_nat a) (Z.of_nat d)) as [E|E]; [replace (d - a)%nat with 0%nat by lia; reflexivity|]. rewrite IH by lia. cbn. f_equal. lia.
Qed.
Lemma take_ok s a : Forall (fun v => 0 <= v < Z.of_nat (List.length s))%Z a -> take s a = Ok (map (fun v => nth (Z.to_nat v) s 0%nat) a).
Proof.
  induction 1 as [|v a Hv H IH]; [reflexivity|]. cbn [take map]. unfold take1. destruct (Z.ltb_spec v (- Z.of_nat (List.length s))); [lia|]. destruct (Z.leb_spec (Z.of_nat (List.length s)) v); [lia|]. destruct (Z.ltb_spec v 0); [lia|]. cbn [bind]. now rewrite IH.
Qed.
Lemma on_axes ndim axes d : (d < ndim)%nat -> on (axes_list ndim axes) d = listed axes d.
Proof.
  intros H. destruct axes as [a|]; cbn [axes_list listed]; [apply on_listed|]. unfold on. now rewrite axis_seq by lia.
Qed.
Lemma transformed_on C N : forall on1 on2 dim idx g, (forall d, (dim <= d < dim + List.length N)%nat -> on1 d = on2 d) -> transformed C on1 dim N idx g = transformed C on2 dim N idx g.
Proof.
  induction N as [|n N IH]; intros on1 on2 dim idx g H; [reflexivity|]. destruct idx as [|k idx]; [reflexivity|]. cbn [transformed]. rewrite (H dim) by (cbn; lia). destruct (on2 dim).
  - apply vsum_ext. intros j Hj. f_equal. apply IH. intros d Hd. apply H. cbn. lia.
  - apply IH. intros d Hd. apply H. cbn. lia.
Qed.
Lemma same_new_shape axes s new : (forall d, (d < List.length s)%nat -> match axis_index (Z.of_nat d) axes with None => True | Some i => nth i new 0%nat = nth d s 0%nat end) -> new_shape new axes 0 s = s.
Proof.
  intros H. apply (nth_ext _ _ 0%nat 0%nat); [apply new_shape_length|]. intros d Hd. rewrite new_shape_length in Hd. rewrite new_shape_nth by exact Hd. cbn [Nat.add]. specialize (H d Hd). destruct (axis_index (Z.of_nat d) axes); [exact H|reflexivity].
Qed.
Lemma keep_formula C x axes : array_ok x -> shape x <> [] -> good_axes (List.length (shape x)) axes -> (forall d, (d < List.length (shape x))%nat -> listed axes d = true -> (1 <= nth d (shape x) 0)%nat) ->
  exists y, transformn C x None axes = Ok y /\ array_ok y /\ shape y = shape x /\ forall idx, index_of (shape x) idx -> item y idx = Some (transformed C (listed axes) 0 (shape x) idx (entry x)).
Proof.
  intros A N G H. set (ndim := List.length (shape x)). set (new := match axes with None => shape x | Some a => map (fun v => nth (Z.to_nat v) (shape x) 0%nat) a end).
  assert (AT : atleast_1d x = x) by (unfold atleast_1d; destruct (shape x) eqn:E; [congruence|reflexivity]). unfold transformn. rewrite AT.
  assert (NV : forall d i, (d < ndim)%nat -> axis_index (Z.of_nat d) (axes_list ndim axes) = Some i -> nth i new 0%nat = nth d (shape x) 0%nat).
  { intros d i Hd Hi. destruct axes as [a|]; cbn [axes_list] in Hi.
    - destruct (axis_bound _ _ _ Hi) as [B1 B2]. unfold new. rewrite (nth_indep _ 0%nat ((fun v => nth (Z.to_nat v) (shape x) 0%nat) 0%Z)) by (now rewrite map_length). rewrite (map_nth (fun v => nth (Z.to_nat v) (shape x) 0%nat)), B2, Nat2Z.id. reflexivity.
    - rewrite axis_seq in Hi by (unfold ndim in *; lia). assert (i = d) by (assert (Some (d - 0)%nat = Some i) by exact Hi; assert (d - 0 = i)%nat by congruence; lia). subst. reflexivity. }
  destruct (raw_ok C x None axes new (axes_list ndim axes) A N) as (y & E & Ay & Sy & Iy).
  - destruct axes as [a|]; [now apply take_ok|reflexivity].
  - unfold get_axes. change (match axes with Some a => a | None => map Z.of_nat (seq 0 (List.length (shape x))) end) with (axes_list ndim axes). assert (L : List.length (axes_list ndim axes) = List.length new). { unfold new. destruct axes as [a|]; unfold axes_list; rewrite ?map_length, ?seq_length; reflexivity. } rewrite L, Nat.eqb_refl. reflexivity.
  - intros d i Hd Hi. rewrite (NV d i Hd Hi). apply H; [exact Hd|]. rewrite <- (on_axes ndim) by exact Hd. unfold on. now rewrite Hi.
  - assert (SS : shape y = shape x). { rewrite Sy. apply same_new_shape. intros d Hd. destruct (axis_index (Z.of_nat d) (axes_list ndim axes)) as [i|] eqn:Hi; [|easy]. now apply NV. }
    exists y. split; [exact E|]. split; [exact Ay|]. split; [exact SS|]. intros idx Hi. rewrite SS in Iy. rewrite Iy by exact Hi. f_equal. apply transformed_on. intros d Hd. apply on_axes. unfold ndim. lia.
Qed.
Lemma shape_formula C x n : array_ok x -> shape x <> [] -> List.length n = List.length (shape x) -> Forall (fun v => (1 <= v)%nat) n ->
  exists y, transformn C x (Some n) None = Ok y /\ array_ok y /\ shape y = n /\ forall idx, index_of n idx -> item y idx = Some (transformed C (fun _ => true) 0 n idx (entry x)).
Proof.
  intros A N L H. set (ndim := List.length (shape x)) in *. assert (AT : atleast_1d x = x) by (unfold atleast_1d; destruct (shape x) eqn:E; [congruence|reflexivity]). unfold transformn. rewrite AT.
  destruct (raw_ok C x (Some n) None n (axes_list ndim None) A N) as (y & E & Ay & Sy & Iy).
  - reflexivity.
  - unfold get_axes. cbn [axes_list]. fold ndim. rewrite map_length, seq_length, L, Nat.eqb_refl. reflexivity.
  - intros d i Hd Hi. cbn [axes_list] in Hi. rewrite axis_seq in Hi by (fold ndim in Hd; lia). assert (i = d) by (assert (d - 0 = i)%nat by congruence; lia). subst i. rewrite Forall_forall in H. apply H, nth_In. fold ndim in Hd. lia.
  - assert (SS : shape y = n). { rewrite Sy. apply (nth_ext _ _ 0%nat 0%nat); [rewrite new_shape_length; now rewrite L|]. intros d Hd. rewrite new_shape_length in Hd. rewrite new_shape_nth by exact Hd. cbn [Nat.add axes_list]. rewrite axis_seq by (fold ndim in Hd; lia). now rewrite Nat.sub_0_r. }
    exists y. split; [exact E|]. split; [exact Ay|]. split; [exact SS|]. rewrite SS in Iy. intros idx Hi. rewrite Iy by exact Hi. f_equal. apply transformed_on. intros d Hd. rewrite (on_axes ndim None) by lia. reflexivity.
Qed.
Lemma axis_found axes i : (i < List.length axes)%nat -> NoDup axes -> axis_index (nth i axes 0%Z) axes = Some i.
Proof.
  revert i. induction axes as [|a axes IH]; intros i H D; [cbn in H; lia|]. inversion D as [|? ? Na D']; subst. destruct i as [|i]; cbn [nth axis_index]; [now rewrite Z.eqb_refl|]. destruct (Z.eqb_spec a (nth i axes 0%Z)) as [E|E]; [exfalso; apply Na; rewrite E; apply nth_In; cbn in H; lia|]. rewrite IH by (easy || (cbn in H; lia)). reflexivity.
Qed.
Lemma both_formula C x n axes : array_ok x -> shape x <> [] -> Forall (fun v => 0 <= v < Z.of_nat (List.length (shape x)))%Z axes -> NoDup axes -> List.length n = List.length axes -> Forall (fun v => (1 <= v)%nat) n ->
  exists y, transformn C x (Some n) (Some axes) = Ok y /\ array_ok y /\ List.length (shape y) = List.length (shape x) /\ (forall i, (i < List.length axes)%nat -> nth (Z.to_nat (nth i axes 0%Z)) (shape y) 0%nat = nth i n 0%nat) /\
    (forall d, (d < List.length (shape x))%nat -> ~ In (Z.of_nat d) axes -> nth d (shape y) 0%nat = nth d (shape x) 0%nat) /\
    forall idx, index_of (shape y) idx -> item y idx = Some (transformed C (listed (Some axes)) 0 (shape y) idx (entry x)).
Proof.
  intros A N G D L H. assert (AT : atleast_1d x = x) by (unfold atleast_1d; destruct (shape x) eqn:E; [congruence|reflexivity]). unfold transformn. rewrite AT.
  destruct (raw_ok C x (Some n) (Some axes) n axes A N) as (y & E & Ay & Sy & Iy).
  - reflexivity.
  - unfold get_axes. rewrite L, Nat.eqb_refl. reflexivity.
  - intros d i Hd Hi. destruct (axis_bound _ _ _ Hi) as [B1 B2]. rewrite Forall_forall in H. apply H, nth_In. lia.
  - exists y. split; [exact E|]. split; [exact Ay|]. split; [rewrite Sy; apply new_shape_length|]. split; [|split].
    + intros i Hi. rewrite Forall_forall in G. specialize (G (nth i axes 0%Z) (nth_In _ _ Hi)). rewrite Sy, new_shape_nth by lia. cbn [Nat.add]. rewrite Z2Nat.id by lia. now rewrite axis_found.
    + intros d Hd NI. rewrite Sy, new_shape_nth by exact Hd. cbn [Nat.add]. destruct (axis_index (Z.of_nat d) axes) as [i|] eqn:AI; [|reflexivity]. exfalso. destruct (axis_bound _ _ _ AI) as [B1 B2]. apply NI. rewrite <- B2. now apply nth_In.
    + intros idx Hi. rewrite Iy by exact Hi. f_equal. apply transformed_on. intros d Hd. apply on_listed.
Qed.

(* ---- negative axes ---- *)
Lemma transformed_off C on1 N : forall dim idx g, (forall d, on1 d = false) -> List.length idx = List.length N -> transformed C on1 dim N idx g = g idx.
Proof. induction N as [|n N IH]; intros dim [|k idx] g H L; try discriminate; [reflexivity|]. cbn [transformed]. rewrite H. rewrite IH by (easy || (cbn in L; lia)). reflexivity. Qed.
Lemma negative_off axes d : Forall (fun v => v < 0)%Z axes -> axis_index (Z.of_nat d) axes = None.
Proof. induction 1 as [|a axes Ha H IH]; [reflexivity|]. cbn [axis_index]. destruct (Z.eqb_spec a (Z.of_nat d)); [lia|]. now rewrite IH. Qed.
Lemma take_some s a : Forall (fun v => - Z.of_nat (List.length s) <= v < Z.of_nat (List.length s))%Z a -> exists n, take s a = Ok n /\ List.length n = List.length a.
Proof.
  induction 1 as [|v a Hv H IH]; [now exists []|]. cbn [take]. unfold take1. destruct (Z.ltb_spec v (- Z.of_nat (List.length s))); [lia|]. destruct (Z.leb_spec (Z.of_nat (List.length s)) v); [lia|]. cbn [bind]. destruct IH as (n & -> & L). cbn [bind]. eexists. split; [reflexivity|]. cbn. now rewrite L.
Qed.
Lemma negative_axes C x axes : array_ok x -> shape x <> [] -> Forall (fun v => - Z.of_nat (List.length (shape x)) <= v < 0)%Z axes -> transformn C x None (Some axes) = Ok x.
Proof.
  intros A N G. assert (AT : atleast_1d x = x) by (unfold atleast_1d; destruct (shape x) eqn:E; [congruence|reflexivity]). unfold transformn. rewrite AT.
  destruct (take_some (shape x) axes) as (n & T & L); [eapply Forall_impl; [|exact G]; cbv beta; lia|]. assert (NEG : Forall (fun v => v < 0)%Z axes) by (eapply Forall_impl; [|exact G]; cbv beta; lia).
  destruct (raw_ok C x None (Some axes) n axes A N) as (y & E & Ay & Sy & Iy).
  - exact T.
  - unfold get_axes. rewrite L, Nat.eqb_refl. reflexivity.
  - intros d i Hd Hi. rewrite negative_off in Hi by exact NEG. discriminate.
  - rewrite E. f_equal. assert (SS : shape y = shape x) by (rewrite Sy; apply same_new_shape; intros d Hd; now rewrite negative_off). apply array_ext; [exact Ay|exact A|exact SS|]. intros idx Hi. rewrite Iy by exact Hi. rewrite SS in *. rewrite transformed_off; [symmetry; now apply entry_item|intros d; unfold on; now rewrite negative_off|now apply index_length].
Qed.

(* ---- errors ---- *)
Lemma each_axis_zero C new axes count : forall dim y shape0 d i, (dim <= d < dim + count)%nat -> axis_index (Z.of_nat d) axes = Some i -> nth i new 0%nat = 0%nat -> each_axis C new axes count dim y shape0 = Err ValueError.
Proof.
  induction count as [|c IH]; intros dim y shape0 d i Hd Hi Hn; [lia|]. cbn [each_axis]. assert (E1 : exists y1, shiftdim y (Some 1%Z) = Ok y1) by (eexists; reflexivity). destruct E1 as [y1 ->]. cbn [bind]. destruct (Nat.eq_dec dim d) as [->|ND].
  - rewrite Hi. unfold along_last. rewrite Hn. reflexivity.
  - destruct (axis_index (Z.of_nat dim) axes) as [k|]; [|apply (IH (S dim) y1 shape0 d i); (easy || lia)]. unfold along_last. destruct (nth k new 0%nat =? 0); [reflexivity|]. cbn [bind]. apply (IH (S dim) _ _ d i); (easy || lia).
Qed.
Lemma length_zero C x n : shape x <> [] -> List.length n = List.length (shape x) -> In 0%nat n -> transformn C x (Some n) None = Err ValueError.
Proof.
  intros N L H. assert (AT : atleast_1d x = x) by (unfold atleast_1d; destruct (shape x) eqn:E; [congruence|reflexivity]). unfold transformn. rewrite AT. unfold raw_dctn. cbn [get_shape bind]. unfold get_axes. rewrite map_length, seq_length, L, Nat.eqb_refl. cbn [bind]. destruct (In_nth _ _ 0%nat H) as (d & Hd & E). rewrite (each_axis_zero C n _ _ 0 _ _ d d); [reflexivity|lia| |exact E]. rewrite axis_seq by lia. now rewrite Nat.sub_0_r.
Qed.
Lemma wrong_count C x n axes : shape x <> [] -> List.length n <> List.length (axes_list (List.length (shape x)) axes) -> transformn C x (Some n) axes = Err ValueError.
Proof.
  intros N L. assert (AT : atleast_1d x = x) by (unfold atleast_1d; destruct (shape x) eqn:E; [congruence|reflexivity]). unfold transformn. rewrite AT. unfold raw_dctn. cbn [get_shape bind]. unfold get_axes. change (match axes with Some a => a | None => map Z.of_nat (seq 0 (List.length (shape x))) end) with (axes_list (List.length (shape x)) axes). destruct (Nat.eqb_spec (List.length (axes_list (List.length (shape x)) axes)) (List.length n)); [congruence|reflexivity].
Qed.
Lemma take_bad s a : (exists v, In v a /\ (v < - Z.of_nat (List.length s) \/ Z.of_nat (List.length s) <= v)%Z) -> take s a = Err IndexError.
Proof.
  induction a as [|w a IH]; intros (v & Hv & B); [destruct Hv|]. cbn [take]. unfold take1. destruct (Z.ltb_spec w (- Z.of_nat (List.length s))); [reflexivity|]. destruct (Z.leb_spec (Z.of_nat (List.length s)) w); [reflexivity|]. cbn [bind]. destruct Hv as [->|Hv]; [lia|]. rewrite IH by (now exists v). reflexivity.
Qed.
Lemma axis_outside C x axes : shape x <> [] -> (exists v, In v axes /\ (v < - Z.of_nat (List.length (shape x)) \/ Z.of_nat (List.length (shape x)) <= v)%Z) -> transformn C x None (Some axes) = Err IndexError.
Proof.
  intros N H. assert (AT : atleast_1d x = x) by (unfold atleast_1d; destruct (shape x) eqn:E; [congruence|reflexivity]). unfold transformn. rewrite AT. unfold raw_dctn. cbn [get_shape]. rewrite take_bad by exact H. reflexivity.
Qed.
