From Coq Require Import Reals Lra Lia.
From Verif Require Import Base PolyModel PolySpec PolyProofs.
Local Open Scope R_scope.

(* ---- polyreloc ------------------------------------------------------------------ *)
Fixpoint synth (x prev : R) (l : list R) : list R :=
  match l with [] => [] | d :: l' => (d - x * prev) :: synth x (d - x * prev) l' end.
Lemma synth_length x l : forall prev, List.length (synth x prev l) = List.length l.
Proof. induction l as [|d l IH]; intros prev; cbn; auto. Qed.
Lemma synth_snoc x l d : forall c, synth x c (l ++ [d]) = synth x c l ++ [d - x * last (c :: synth x c l) 0].
Proof.
  induction l as [|e l IH]; intros c; [reflexivity|]. cbn [app synth]. rewrite IH. reflexivity.
Qed.
Lemma upd_app {A} (l : list A) a l' v : upd (l ++ a :: l') (List.length l) v = l ++ v :: l'.
Proof.
  unfold upd. rewrite firstn_app, Nat.sub_diag, firstn_all. cbn [firstn]. rewrite app_nil_r.
  f_equal. f_equal. rewrite skipn_app. replace (S (List.length l) - List.length l)%nat with 1%nat by lia.
  rewrite skipn_all2 by lia. reflexivity.
Qed.
Lemma nth_app_len {A} (l : list A) a l' d : nth (List.length l) (l ++ a :: l') d = a.
Proof. rewrite app_nth2, Nat.sub_diag; [reflexivity|lia]. Qed.
Lemma pass_synth x c l : forall k, (k <= List.length l)%nat ->
  reloc_pass (fun v => v) x (S k) (c :: l) = c :: synth x c (firstn k l) ++ skipn k l.
Proof.
  unfold reloc_pass. intros k. replace (S k - 1)%nat with k by lia.
  induction k as [|k IH]; intros H; [reflexivity|].
  rewrite seq_S, fold_left_app, IH by lia. cbn [fold_left].
  assert (exists d l2, skipn k l = d :: l2 /\ skipn (S k) l = l2 /\ firstn (S k) l = firstn k l ++ [d]) as [d [l2 [E1 [E2 E3]]]].
  { destruct (skipn k l) as [|d l2] eqn:E.
    - pose proof (f_equal (@List.length R) E) as E'. rewrite skipn_length in E'. cbn in E'. lia.
    - exists d, l2. split; [reflexivity|]. clear IH. revert l H E. induction k as [|k IHk]; intros l H E.
      + destruct l; cbn in *; [discriminate|]. injection E as -> ->. auto.
      + destruct l as [|e l]; cbn in H, E; [discriminate|]. destruct (IHk l ltac:(lia) E) as [F1 F2].
        split; [exact F1|]. change (firstn (S (S k)) (e :: l)) with (e :: firstn (S k) l).
        rewrite F2. reflexivity. }
  rewrite E1, E2, E3, synth_snoc.
  set (s := synth x c (firstn k l)).
  assert (Hs : List.length s = k) by (unfold s; rewrite synth_length, firstn_length; lia).
  change (c :: s ++ d :: l2) with ((c :: s) ++ d :: l2).
  replace (1 + k)%nat with (List.length (c :: s)) by (cbn; lia).
  unfold at_R at 1. rewrite nth_app_len. rewrite upd_app.
  replace (at_R ((c :: s) ++ d :: l2) (List.length (c :: s) - 1)) with (last (c :: s) 0).
  - cbn [app]. rewrite <- app_assoc. reflexivity.
  - unfold at_R. cbn [List.length]. replace (S (List.length s) - 1)%nat with (List.length s) by lia.
    rewrite app_nth1 by (cbn; lia). clearbody s. clear. revert c. induction s as [|e s IH]; intros c; [reflexivity|].
    cbn [List.length nth]. change (last (c :: e :: s) 0) with (last (e :: s) 0). apply IH.
Qed.
Lemma synth_division x t l : forall c,
  peval (c :: l) t = (t + x) * peval (removelast (c :: synth x c l)) t + last (c :: synth x c l) 0.
Proof.
  induction l as [|d l IH]; intros c; [cbn; ring|].
  cbn [synth]. set (e := d - x * c). set (s := synth x e l) in *.
  change (removelast (c :: e :: s)) with (c :: removelast (e :: s)).
  change (last (c :: e :: s) 0) with (last (e :: s) 0).
  rewrite (peval_cons c (removelast (e :: s))), removelast_length.
  assert (List.length s = List.length l) by (unfold s; apply synth_length).
  cbn [List.length]. replace (S (List.length s) - 1)%nat with (List.length l) by lia.
  specialize (IH e). fold s in IH. rewrite (peval_cons e) in IH.
  rewrite (peval_cons c), (peval_cons d). cbn [List.length pow]. unfold e in *.
  rewrite Rmult_plus_distr_l. 
  replace ((t + x) * (c * t ^ List.length l) + (t + x) * peval (removelast (d - x * c :: s)) t + last (d - x * c :: s) 0)
    with ((t + x) * (c * t ^ List.length l) + ((t + x) * peval (removelast (d - x * c :: s)) t + last (d - x * c :: s) 0)) by ring.
  rewrite <- IH. ring.
Qed.
Lemma removelast_last_app {A} (l : list A) d : l <> [] -> l = removelast l ++ [last l d].
Proof. intros. now apply app_removelast_last. Qed.

Lemma reloc_loop_spec x n : forall A B, List.length A = S n ->
  List.length (reloc_loop (fun v => v) x (S n) (A ++ B)) = List.length (A ++ B) /\
  forall s, peval (reloc_loop (fun v => v) x (S n) (A ++ B)) s = peval A (s - x) * s ^ List.length B + peval B s.
Proof.
  induction n as [|n IH]; intros A B HA.
  - cbn. split; [reflexivity|]. intros s. destruct A as [|c [|? ?]]; cbn in HA; try lia. cbn. ring.
  - destruct A as [|c l]; cbn in HA; [lia|].
    cbn [reloc_loop]. replace (Nat.ltb 1 (S (S n))) with true by (symmetry; apply Nat.ltb_lt; lia).
    cbn [app]. rewrite pass_synth by (rewrite app_length; lia).
    assert (Hl : List.length l = S n) by lia.
    rewrite firstn_app, skipn_app. replace (S n - List.length l)%nat with 0%nat by lia.
    rewrite firstn_all2, skipn_all2 by lia. cbn [firstn skipn app]. rewrite app_nil_r.
    set (q := c :: synth x c l).
    assert (Hq : List.length q = S (S n)) by (unfold q; cbn; rewrite synth_length; lia).
    assert (Eq : q = removelast q ++ [last q 0]) by (apply removelast_last_app; discriminate).
    change (c :: synth x c l ++ B) with (q ++ B). rewrite Eq, <- app_assoc. cbn [app].
    change (if Nat.ltb 1 (S n) then reloc_loop (fun v => v) x n (reloc_pass (fun v => v) x (S n) (removelast q ++ last q 0 :: B)) else removelast q ++ last q 0 :: B)
      with (reloc_loop (fun v => v) x (S n) (removelast q ++ last q 0 :: B)).
    destruct (IH (removelast q) (last q 0 :: B)) as [L E].
    { rewrite removelast_length. lia. }
    split.
    + rewrite L, !app_length, removelast_length, Hq. cbn [List.length]. rewrite app_length. lia.
    + intros s. rewrite E, peval_cons. pose proof (synth_division x (s - x) l c) as D. fold q in D.
      rewrite D. cbn [List.length pow]. ring.
Qed.
Lemma reloc_loop_value x p s : p <> [] ->
  List.length (reloc_loop (fun v => v) x (List.length p) p) = List.length p /\
  peval (reloc_loop (fun v => v) x (List.length p) p) s = peval p (s - x).
Proof.
  intros Hp. destruct (List.length p) as [|n] eqn:E; [destruct p; [congruence|discriminate]|].
  destruct (reloc_loop_spec x n p [] E) as [H1 H2]. rewrite app_nil_r in *. split; [congruence|].
  rewrite H2. cbn. ring.
Qed.
Lemma upd_last_value r y s : r <> [] ->
  peval (upd r (List.length r - 1) (at_R r (List.length r - 1) + y)) s = peval r s + y.
Proof.
  intros Hr. rewrite (removelast_last_app r 0 Hr) at 1 2 3 4.
  set (q := removelast r). set (z := last r 0).
  rewrite app_length. cbn [List.length]. replace (List.length q + 1 - 1)%nat with (List.length q) by lia.
  rewrite upd_app. unfold at_R. rewrite nth_app_len.
  rewrite (removelast_last_app r 0 Hr). fold q z. rewrite !peval_snoc. ring.
Qed.
Lemma upd_length {A} (l : list A) i v : (i < List.length l)%nat -> List.length (upd l i v) = List.length l.
Proof. intros H. unfold upd. rewrite app_length, firstn_length. cbn [List.length]. rewrite skipn_length. lia. Qed.
Lemma polyreloc_spec p x y : p <> [] -> exists r, polyreloc p x y = Ok r /\ List.length r = List.length p
  /\ forall s, peval r s = peval p (s - x) + y.
Proof.
  intros Hp. unfold polyreloc, polyreloc_as. destruct p as [|c p'] eqn:E; [congruence|]. rewrite <- E in *.
  cbv zeta. eexists; split; [reflexivity|]. cbv beta.
  destruct (reloc_loop_value x p 0 Hp) as [L _].
  assert (Hr : reloc_loop (fun v => v) x (List.length p) p <> []).
  { intros G. rewrite G in L. destruct p; [congruence|discriminate]. }
  split.
  - rewrite upd_length; [exact L|]. rewrite L. destruct p; [congruence|cbn; lia].
  - intros s. rewrite upd_last_value by exact Hr. now rewrite (proj2 (reloc_loop_value x p s Hp)).
Qed.
Lemma polyreloc_empty x y : polyreloc [] x y = Err IndexError.
Proof. reflexivity. Qed.
Lemma trunc_half : trunc (- (1 / 2)) = 0.
Proof.
  unfold trunc. destruct (Rle_dec 0 (- (1/2))); [lra|].
  assert (Int_part (- - (1 / 2)) = 0)%Z as ->; [|ring].
  unfold Int_part. assert (1 = up (- - (1 / 2)))%Z; [|lia].
  apply tech_up; lra.
Qed.
Lemma trunc_0 : trunc 0 = 0.
Proof.
  unfold trunc. destruct (Rle_dec 0 0); [|lra].
  assert (Int_part 0 = 0)%Z as ->; [|ring].
  unfold Int_part. assert (1 = up 0)%Z; [|lia]. apply tech_up; lra.
Qed.
Lemma polyreloc_int_wrong : exists r, polyreloc_int [1; 0]%Z (1/2) 0 = Ok r /\
  peval r 0 <> peval (map IZR [1; 0]%Z) (0 - 1/2) + 0.
Proof.
  unfold polyreloc_int, polyreloc_as. cbn -[trunc]. unfold reloc_pass, upd, at_R. cbn -[trunc].
  eexists; split; [reflexivity|]. cbv beta.
  replace (0 - 1 / 2 * 1) with (- (1/2)) by lra. rewrite trunc_half. replace (0 + 0) with 0 by ring.
  rewrite trunc_0. cbn. lra.
Qed.

(* ---- polyrescl ------------------------------------------------------------------- *)
Lemma map2_map_r {A B C D} (f : A -> C -> D) (g : B -> C) a : forall b, map2 f a (map g b) = map2 (fun x y => f x (g y)) a b.
Proof. induction a as [|x a IH]; intros [|y b]; cbn; [reflexivity..|]. now rewrite IH. Qed.
Lemma rescl_aux x y r : x <> 0 -> forall p n i, (i + List.length p = n)%nat ->
  peval (map2 (fun c j => y * c * powerRZ x (1 - Z.of_nat n + Z.of_nat j)) p (seq i (List.length p))) r = y * peval p (r / x).
Proof.
  intros Hx p. induction p as [|c p IH]; intros n i H; [cbn; ring|].
  cbn [List.length] in *. cbn [seq map2]. rewrite !peval_cons, IH by lia.
  rewrite map2_length, seq_length, Nat.min_id.
  replace (1 - Z.of_nat n + Z.of_nat i)%Z with (- Z.of_nat (List.length p))%Z by lia.
  rewrite powerRZ_neg, <- pow_powerRZ by exact Hx. unfold Rdiv. rewrite Rpow_mult_distr.
  rewrite pow_inv. ring.
Qed.
Lemma polyrescl_spec p x y r : x <> 0 -> peval (polyrescl p x y) r = y * peval p (r / x).
Proof.
  intros Hx. unfold polyrescl. cbv zeta. rewrite map2_map_r. apply rescl_aux; [exact Hx|lia].
Qed.
Lemma polyrescl_length p x y : List.length (polyrescl p x y) = List.length p.
Proof. unfold polyrescl. rewrite map2_length, map_length, seq_length. lia. Qed.

(* ---- polyshift / polyishift -------------------------------------------------------- *)
Lemma is_unit_spec a b : is_unit a b = true <-> a = -1 /\ b = 1.
Proof.
  unfold is_unit. destruct (Req_EM_T a (-1)), (Req_EM_T b 1); split; intuition congruence.
Qed.
Lemma polyishift_spec p a b : p <> [] -> a <> b -> exists q, polyishift p a b = Ok q /\
  q <> [] /\ forall y, peval q y = peval p (map_to_interval y a b).
Proof.
  intros Hp Hab. unfold polyishift. destruct (is_unit a b) eqn:E.
  - apply is_unit_spec in E as [-> ->]. exists p. split; [reflexivity|]. split; [exact Hp|].
    intros y. f_equal. unfold map_to_interval. field.
  - cbv zeta. destruct (polyreloc_spec (polyrescl p (2 / (b - a)) 1) (- (a + b) / (b - a)) 0) as [r [E1 [L H]]].
    { intros G. pose proof (polyrescl_length p (2 / (b - a)) 1) as G'. rewrite G in G'. destruct p; [congruence|discriminate]. }
    exists r. split; [exact E1|]. rewrite polyrescl_length in L. split.
    { intros ->. destruct p; [congruence|discriminate]. }
    intros y. rewrite H, polyrescl_spec.
    + replace ((y - - (a + b) / (b - a)) / (2 / (b - a))) with (map_to_interval y a b); [ring|].
      unfold map_to_interval. field. lra.
    + unfold Rdiv. apply Rmult_integral_contrapositive_currified; [lra|]. apply Rinv_neq_0_compat. lra.
Qed.
Lemma polyshift_spec p a b : p <> [] -> a <> b -> exists q, polyshift p a b = Ok q /\
  q <> [] /\ forall x, peval q x = peval p (map_from_interval x a b).
Proof.
  intros Hp Hab. unfold polyshift. destruct (is_unit a b) eqn:E.
  - apply is_unit_spec in E as [-> ->]. exists p. split; [reflexivity|]. split; [exact Hp|].
    intros y. f_equal. unfold map_from_interval. field.
  - cbv zeta. destruct (polyishift_spec p (- (2 + b + a) / (b - a)) ((2 - b - a) / (b - a)) Hp) as [q [E1 [Hq H]]].
    { intros G. assert (- (2 + b + a) = 2 - b - a); [|lra].
      apply (Rmult_eq_reg_r (/ (b - a))); [exact G|]. apply Rinv_neq_0_compat. lra. }
    exists q. split; [exact E1|]. split; [exact Hq|]. intros x. rewrite H. f_equal.
    unfold map_to_interval, map_from_interval. field. lra.
Qed.
Lemma polyshift_polyishift p a b : p <> [] -> a <> b ->
  exists q r, polyshift p a b = Ok q /\ polyishift q a b = Ok r /\ forall x, peval r x = peval p x.
Proof.
  intros Hp Hab. destruct (polyshift_spec p a b Hp Hab) as [q [E [Hq H]]].
  destruct (polyishift_spec q a b Hq Hab) as [r [E' [_ H']]]. exists q, r. split; [exact E|]. split; [exact E'|].
  intros x. rewrite H', H. f_equal. unfold map_from_interval, map_to_interval. field. lra.
Qed.
Lemma polyishift_polyshift p a b : p <> [] -> a <> b ->
  exists q r, polyishift p a b = Ok q /\ polyshift q a b = Ok r /\ forall x, peval r x = peval p x.
Proof.
  intros Hp Hab. destruct (polyishift_spec p a b Hp Hab) as [q [E [Hq H]]].
  destruct (polyshift_spec q a b Hq Hab) as [r [E' [_ H']]]. exists q, r. split; [exact E|]. split; [exact E'|].
  intros x. rewrite H', H. f_equal. unfold map_from_interval, map_to_interval. field. lra.
Qed.

(* ---- polytrim ------------------------------------------------------------------------ *)
Lemma or_accumulate_true m : or_accumulate true m = repeat true (List.length m).
Proof. induction m as [|b m IH]; cbn; [reflexivity|]. now rewrite IH. Qed.
Lemma mask_all {A} (l : list A) : mask_select l (repeat true (List.length l)) = l.
Proof. induction l as [|a l IH]; cbn; [reflexivity|]. now rewrite IH. Qed.
Lemma polytrim_drop p : polytrim p = drop_zeros p.
Proof.
  unfold polytrim. induction p as [|c p IH]; [reflexivity|]. cbn [map or_accumulate orb drop_zeros mask_select].
  destruct (nonzero c) eqn:E; [|exact IH].
  rewrite or_accumulate_true, map_length, mask_all. reflexivity.
Qed.
Lemma polytrim_spec p : exists z, p = z ++ polytrim p /\ Forall (fun c => c = 0) z /\
  (polytrim p = [] \/ exists c q, polytrim p = c :: q /\ c <> 0).
Proof.
  rewrite polytrim_drop. induction p as [|c p [z [E [Hz H]]]].
  - exists []. cbn. auto.
  - cbn [drop_zeros]. destruct (nonzero c) eqn:En.
    + exists []. split; [reflexivity|]. split; [constructor|]. right. apply nonzero_true in En. eauto.
    + exists (c :: z). apply nonzero_false in En. split; [cbn; now rewrite <- E|]. split; [constructor; auto|exact H].
Qed.
Lemma polytrim_value p x : peval (polytrim p) x = peval p x.
Proof. rewrite polytrim_drop. apply peval_drop_zeros. Qed.

Lemma polytrim2_aux w p : Forall (fun row => List.length row = w) p -> forall acc, List.length acc = w ->
  mask_select p (map (existsb (fun b => b)) (or_accumulate2 acc (map (map nonzero) p)))
  = if existsb (fun b => b) acc then p
    else (fix drop (q : list (list R)) := match q with [] => [] | r :: q' => if existsb nonzero r then q else drop q' end) p.
Proof.
  intros Hp. induction Hp as [|row p Hr Hp IH]; intros acc Ha; [cbn; now destruct (existsb _ acc)|].
  cbn [map or_accumulate2 mask_select].
  assert (E : existsb (fun b => b) (map2 orb acc (map nonzero row)) = existsb (fun b => b) acc || existsb nonzero row).
  { clear -Ha Hr. revert acc Ha. subst w. induction row as [|c row IH]; intros [|b acc] H; cbn in *; try discriminate; [reflexivity|].
    rewrite IH by lia. destruct b, (nonzero c), (existsb (fun b => b) acc), (existsb nonzero row); reflexivity. }
  rewrite IH by (rewrite map2_length, map_length; lia). rewrite E.
  destruct (existsb (fun b => b) acc); cbn [orb]; [reflexivity|].
  destruct (existsb nonzero row); reflexivity.
Qed.
Lemma existsb_false_repeat w : existsb (fun b : bool => b) (repeat false w) = false.
Proof. induction w; cbn; auto. Qed.
Lemma polytrim2_spec w p : Forall (fun row => List.length row = w) p ->
  exists z, p = z ++ polytrim2 w p /\ Forall (Forall (fun c => c = 0)) z /\
  (polytrim2 w p = [] \/ exists r q, polytrim2 w p = r :: q /\ Exists (fun c => c <> 0) r).
Proof.
  intros Hp. unfold polytrim2. rewrite (polytrim2_aux w) by (assumption || apply repeat_length).
  rewrite existsb_false_repeat. induction Hp as [|row p Hr Hp [z [E [Hz H]]]].
  - exists []. cbn. auto.
  - destruct (existsb nonzero row) eqn:En.
    + exists []. split; [reflexivity|]. split; [constructor|]. right. exists row, p. split; [reflexivity|].
      apply existsb_exists in En as [c [Hc1 Hc2]]. apply Exists_exists. exists c. split; [exact Hc1|]. now apply nonzero_true.
    + exists (row :: z). split; [cbn; now rewrite <- E|]. split; [|exact H].
      constructor; [|exact Hz]. apply Forall_forall. intros c Hc. apply nonzero_false.
      destruct (nonzero c) eqn:G; [|reflexivity]. exfalso.
      assert (existsb nonzero row = true) by (apply existsb_exists; eauto). congruence.
Qed.

(* ---- ortho2poly ------------------------------------------------------------------------ *)
Lemma ortho_polys_value t x i : (peval (fst (ortho_polys t i)) x, match i with O => 0 | _ => peval (snd (ortho_polys t i)) x end)
  = ortho_rows x t i.
Proof.
  induction i as [|i IH]; [cbn; f_equal; ring|].
  destruct i as [|i]; [cbn; f_equal; ring|].
  change (ortho_polys t (S (S i))) with (let (u, v) := ortho_polys t (S i) in
            (polyadd (polymul [1; - at_R (row1 t) (S (S i))] u) (map (Rmult (- at_R (row2 t) (S (S i)))) v), u)).
  change (ortho_rows x t (S (S i))) with (let (u, v) := ortho_rows x t (S i) in
   ((x - at_R (row1 t) (S (S i))) * u - at_R (row2 t) (S (S i)) * v, u)).
  rewrite <- IH. destruct (ortho_polys t (S i)) as [u v]. cbn [fst snd].
  f_equal. rewrite peval_polyadd, peval_polymul, peval_scale. cbn [peval List.length pow]. ring.
Qed.
Lemma fold_polyadd xs : forall x0 x, peval (fold_left polyadd xs x0) x = peval x0 x + fold_right (fun q s => peval q x + s) 0 xs.
Proof.
  induction xs as [|q xs IH]; intros x0 x; cbn [fold_left fold_right]; [ring|].
  rewrite IH, peval_polyadd. ring.
Qed.
Lemma dot_seq c (f : nat -> R) : forall s l, (forall i, at_R c (s + i) = at_R l i) ->
  dot l (map f (seq s (List.length l))) = fold_right (fun q t => q + t) 0 (map (fun i => at_R c i * f i) (seq s (List.length l))).
Proof.
  intros s l. revert s. induction l as [|a l IH]; intros s H; [reflexivity|].
  cbn [List.length seq map dot fold_right]. f_equal.
  - f_equal. specialize (H 0%nat). rewrite Nat.add_0_r in H. rewrite H. reflexivity.
  - apply IH. intros i. specialize (H (S i)). rewrite Nat.add_succ_r in H. rewrite Nat.add_succ_l. rewrite H. reflexivity.
Qed.
Lemma ortho2poly_spec t : row0 t <> [] -> exists q, ortho2poly t = Ok q /\ forall x, orthoval t x = Ok (peval q x).
Proof.
  intros H. unfold ortho2poly, orthoval. destruct (row0 t) as [|c0 [|c1 cs]] eqn:E; [congruence| |].
  - exists [c0]. split; [reflexivity|]. intros x. f_equal. cbn. ring.
  - cbv zeta. rewrite <- E. set (n := S (List.length cs)).
    change (List.length (c1 :: cs)) with n. change (seq 0 (S n)) with (0%nat :: seq 1 n). cbn [map].
    eexists; split; [reflexivity|]. intros x. f_equal.
    rewrite fold_polyadd.
    replace (List.length (row0 t)) with (S n) by (rewrite E; reflexivity).
    replace (S n) with (List.length (row0 t)) by (rewrite E; reflexivity).
    rewrite (dot_seq (row0 t) (fun i => fst (ortho_rows x t i)) 0 (row0 t)) by reflexivity.
    replace (List.length (row0 t)) with (S n) by (rewrite E; reflexivity).
    cbn [seq map fold_right]. f_equal.
    + rewrite peval_scale, <- ortho_polys_value. reflexivity.
    + induction (seq 1 n) as [|i l IHl]; [reflexivity|]. cbn [map fold_right]. rewrite <- IHl. f_equal.
      rewrite peval_scale, <- ortho_polys_value. reflexivity.
Qed.
Lemma interval_maps a b : a <> b ->
  map_from_interval a a b = -1 /\ map_from_interval b a b = 1 /\
  map_to_interval (-1) a b = a /\ map_to_interval 1 a b = b /\
  (forall x, map_to_interval (map_from_interval x a b) a b = x) /\
  (forall y, map_from_interval (map_to_interval y a b) a b = y).
Proof. intros H. unfold map_from_interval, map_to_interval. repeat split; intros; field; lra. Qed.
