From Coq Require Import Reals List Lra Lia Bool Arith ZArith.
From Verif Require Import Base PolyModel TransModel PolySpec ArSpec ArProofs2 CsimProofs KernelProofs7 KdeModel ChebModel ChebProofs3 ProcProofs Sg2Spec Sg2Proofs Sg2Proofs2 PadeModel PadeSpec PadeProofs.
Import ListNotations.
Local Open Scope R_scope.
Set Bullet Behavior "Strict Subproofs".

(* ---- padefit ---- *)
Lemma fit_agrees solve poly1d c m num den : solves solve -> padefit solve poly1d c m = Ok (num, den) ->
  (List.length num + List.length den = List.length c + 1)%nat /\ peval den 0 = 1 /\ agrees (List.length c) c num den /\
  forall num' den', (List.length num' <= List.length num)%nat -> (List.length den' <= List.length den)%nat -> agrees (List.length c) c num' den' -> same_quotient num den num' den'.
Proof.
  intros S H. unfold padefit in H. cbv zeta in H. apply (pade_spec solve _ _ _ _ S) in H. rewrite rev_length, rev_involutive in H. destruct H as (Hm & Ld & Ln & D0 & A).
  assert (E : (List.length num + List.length den = List.length c + 1)%nat) by lia. split; [exact E|]. split; [exact D0|]. split; [exact A|].
  intros num' den' L1 L2 A'. apply (unique_quotient (List.length c) c); [exact A|exact A'|lia|lia].
Qed.
Lemma fit_order solve poly1d c m num den : solves solve -> padefit solve poly1d c m = Ok (num, den) ->
  Z.of_nat (List.length den) = (1 + match m with Some (Zpos p) => Zpos p | _ => (Z.of_nat (List.length c) - (if poly1d then 2 else 1)) / 2 end)%Z.
Proof.
  intros S H. unfold padefit in H. cbv zeta in H. apply (pade_spec solve _ _ _ _ S) in H. destruct H as (Hm & Ld & _).
  assert (E : forall P, (Z.of_nat (List.length c) - (if poly1d then 1 else 0) - 1)%Z = (Z.of_nat (List.length c) - (if poly1d then 2 else 1))%Z \/ P) by (intros; left; destruct poly1d; lia).
  destruct (E False) as [E'|[]]. rewrite E' in *. rewrite Ld. destruct m as [[|p|p]|]; lia.
Qed.
Lemma fit_refused solve poly1d c m : (m < 0 \/ 0 < m /\ Z.of_nat (List.length c) <= m)%Z -> padefit solve poly1d c (Some m) = Err ValueError.
Proof.
  intros H. unfold padefit. cbv zeta. destruct m as [|p|p]; [lia| |]; unfold pade; rewrite rev_length.
  - destruct (Z.ltb_spec (Z.of_nat (List.length c) - 1) (Zpos p)); [reflexivity|lia].
  - reflexivity.
Qed.
(* a polynomial asked for, a quotient returned *)
Lemma zero_order solve c num den : solves solve -> (3 <= List.length c)%nat -> padefit solve false c (Some 0%Z) = Ok (num, den) -> padefit solve false c None = Ok (num, den) /\ (2 <= List.length den)%nat.
Proof.
  intros S L H. split; [exact H|]. pose proof (fit_order solve false c (Some 0%Z) num den S H) as E. cbv iota beta in E. assert (1 <= (Z.of_nat (List.length c) - 1) / 2)%Z by (apply Z.div_le_lower_bound; lia). lia.
Qed.
Lemma poly1d_differs solve c num den num' den' : solves solve -> Nat.odd (List.length c) = true -> padefit solve false c None = Ok (num, den) -> padefit solve true c None = Ok (num', den') -> List.length den = S (List.length den').
Proof.
  intros S L H H'. pose proof (fit_order _ _ _ _ _ _ S H) as E. pose proof (fit_order _ _ _ _ _ _ S H') as E'. cbv iota beta in E, E'. apply Nat.odd_spec in L. destruct L as [k Lk]. rewrite Lk in E, E'.
  replace (Z.of_nat (2 * k + 1) - 1)%Z with (Z.of_nat k * 2)%Z in E by lia. rewrite Z.div_mul in E by lia.
  replace (Z.of_nat (2 * k + 1) - 2)%Z with (1 + (Z.of_nat k - 1) * 2)%Z in E' by lia. rewrite Z.div_add in E' by lia. change (1 / 2)%Z with 0%Z in E'. lia.
Qed.

(* ---- least squares by the Moore-Penrose inverse ---- *)
Lemma consistent p q A P b c : moore_penrose p q A P -> (forall i, (i < p)%nat -> sum_to q (fun j => A i j * c j) = b i) ->
  forall i, (i < p)%nat -> sum_to q (fun j => A i j * sum_to p (fun k => P j k * b k)) = b i.
Proof.
  intros [H _] E i Hi. rewrite <- (E i Hi). transitivity (sum_to q (fun l => times p (times q A P) A i l * c l)).
  - unfold times. rewrite (sum_ext q (fun j => A i j * sum_to p (fun k => P j k * b k)) (fun j => sum_to p (fun k => A i j * P j k * b k))) by (intros; rewrite <- sum_scal; apply sum_ext; intros; ring).
    rewrite sum_swap. rewrite (sum_ext p _ (fun k => sum_to q (fun l => sum_to q (fun j => A i j * P j k) * A k l * c l))).
    + rewrite sum_swap. apply sum_ext. intros l Hl. rewrite sum_scal_r. reflexivity.
    + intros k Hk. rewrite sum_scal_r. rewrite <- (E k Hk), <- sum_scal. apply sum_ext. intros; ring.
  - apply sum_ext. intros l Hl. now rewrite H.
Qed.
Lemma normal_equations p q A P b l : moore_penrose p q A P -> (l < q)%nat ->
  sum_to p (fun i => A i l * (sum_to q (fun j => A i j * sum_to p (fun k => P j k * b k)) - b i)) = 0.
Proof.
  intros (H1 & _ & H3 & _) Hl.
  assert (E : forall i, (i < p)%nat -> sum_to q (fun j => A i j * sum_to p (fun k => P j k * b k)) = sum_to p (fun k => times q A P i k * b k)).
  { intros i Hi. unfold times. rewrite (sum_ext q _ (fun j => sum_to p (fun k => A i j * P j k * b k))) by (intros; rewrite <- sum_scal; apply sum_ext; intros; ring). rewrite sum_swap. apply sum_ext. intros k Hk. apply sum_scal_r. }
  rewrite (sum_ext p _ (fun i => sum_to p (fun k => A i l * times q A P i k * b k) - A i l * b i)).
  - rewrite sum_minus, sum_swap. apply Rminus_diag_eq. apply sum_ext. intros k Hk. rewrite sum_scal_r. f_equal. rewrite <- (H1 k l Hk Hl). unfold times at 2. apply sum_ext. intros i Hi. rewrite (H3 i k Hi Hk). ring.
  - intros i Hi. rewrite (E i Hi), Rmult_minus_distr_l. f_equal. rewrite <- sum_scal. apply sum_ext. intros; ring.
Qed.
Lemma least_squares p q A P b c : moore_penrose p q A P ->
  sum_to p (fun i => (sum_to q (fun j => A i j * sum_to p (fun k => P j k * b k)) - b i) ^ 2) <= sum_to p (fun i => (sum_to q (fun j => A i j * c j) - b i) ^ 2).
Proof.
  intros MP. set (s := fun j => sum_to p (fun k => P j k * b k)). set (r := fun i => sum_to q (fun j => A i j * s j) - b i).
  assert (O : sum_to p (fun i => r i * sum_to q (fun j => A i j * (c j - s j))) = 0).
  { rewrite (sum_ext p _ (fun i => sum_to q (fun j => (c j - s j) * (A i j * r i)))) by (intros; rewrite <- sum_scal; apply sum_ext; intros; ring).
    rewrite sum_swap. rewrite (sum_ext q _ (fun _ => 0)); [apply sum_0|]. intros j Hj. rewrite sum_scal. unfold r, s. rewrite (normal_equations p q A P b j MP Hj). ring. }
  rewrite (sum_ext p (fun i => (sum_to q (fun j => A i j * c j) - b i) ^ 2) (fun i => r i ^ 2 + (2 * (r i * sum_to q (fun j => A i j * (c j - s j))) + sum_to q (fun j => A i j * (c j - s j)) ^ 2))).
  - rewrite sum_plus, sum_plus, sum_scal, O. assert (0 <= sum_to p (fun i => sum_to q (fun j => A i j * (c j - s j)) ^ 2)) by (apply sum_nonneg; intros; apply pow2_ge_0). change (sum_to p (fun i => r i ^ 2) <= sum_to p (fun i => r i ^ 2) + (2 * 0 + sum_to p (fun i => sum_to q (fun j => A i j * (c j - s j)) ^ 2))). lra.
  - intros i Hi. rewrite (sum_ext q (fun j => A i j * (c j - s j)) (fun j => A i j * c j - A i j * s j)) by (intros; ring). rewrite sum_minus. unfold r. ring.
Qed.
(* ---- the polynomials of a coefficient vector ---- *)
Lemma num_eval m cof x : peval (num_of m cof) x = sum_to (m + 1) (fun j => cof j * x ^ j).
Proof. apply peval_sum. Qed.
Lemma den_eval m k cof x : peval (den_of m k cof) x = 1 + sum_to k (fun j => cof (m + 1 + j)%nat * x ^ (j + 1)).
Proof.
  unfold den_of. induction k as [|k IH]; [cbn; ring|]. rewrite seq_S, map_app, rev_app_distr. cbn [map rev app sum_to]. cbn [peval]. rewrite IH. rewrite app_length, rev_length, map_length, seq_length. cbn [List.length]. ring.
Qed.
Lemma num_length m cof : List.length (num_of m cof) = (m + 1)%nat. Proof. unfold num_of. now rewrite rev_length, map_length, seq_length. Qed.
Lemma den_length m k cof : List.length (den_of m k cof) = (k + 1)%nat. Proof. unfold den_of. rewrite app_length, rev_length, map_length, seq_length. reflexivity. Qed.
Lemma matrix_times m k x wt bb cof i : sum_to (m + k + 1) (fun j => matrix_of m x wt bb i j * cof j) = wt i * peval (num_of m cof) (x i) - bb i * (peval (den_of m k cof) (x i) - 1).
Proof.
  rewrite num_eval, den_eval. replace (m + k + 1)%nat with ((m + 1) + k)%nat by lia. rewrite sum_split. rewrite (sum_ext (m + 1) _ (fun j => wt i * (cof j * x i ^ j))), (sum_ext k _ (fun j => - bb i * (cof (m + 1 + j)%nat * x i ^ (j + 1)))).
  - rewrite !sum_scal. ring.
  - intros j Hj. unfold matrix_of. destruct (Nat.leb_spec (m + 1 + j) m); [lia|]. replace (m + 1 + j - m)%nat with (j + 1)%nat by lia. ring.
  - intros j Hj. unfold matrix_of. destruct (Nat.leb_spec j m); [ring|lia].
Qed.
(* every pair of polynomials of the right sizes with den(0) = 1 comes from a vector *)
Lemma pair_vector num den m k : (List.length num <= m + 1)%nat -> (List.length den <= k + 1)%nat -> peval den 0 = 1 -> exists c, (forall x, peval (num_of m c) x = peval num x) /\ (forall x, peval (den_of m k c) x = peval den x).
Proof.
  intros Ln Ld D. set (n := fun u => if (u <? List.length num)%nat then nth u (rev num) 0 else 0). set (d := fun u => if (u <? List.length den)%nat then nth u (rev den) 0 else 0).
  assert (Vn : forall x, peval num x = poly (m + 1) n x) by (intros x; rewrite list_poly; apply poly_more; exact Ln).
  assert (Vd : forall x, peval den x = poly (k + 1) d x) by (intros x; rewrite list_poly; apply poly_more; exact Ld).
  assert (d0 : d 0%nat = 1).
  { rewrite <- D, Vd. unfold poly. rewrite (sum_first (k + 1)) by lia. rewrite (sum_ext _ _ (fun _ => 0)) by (intros; cbn [pow]; ring). rewrite sum_0. cbn [pow]. ring. }
  exists (fun j => if (j <=? m)%nat then n j else d (j - m)%nat). split; intros x.
  - rewrite num_eval, Vn. apply sum_ext. intros j Hj. destruct (Nat.leb_spec j m); [reflexivity|lia].
  - rewrite den_eval, Vd. unfold poly. rewrite (sum_first (k + 1)) by lia. replace (k + 1 - 1)%nat with k by lia. rewrite d0. cbn [pow]. f_equal; [ring|]. apply sum_ext. intros j Hj. destruct (Nat.leb_spec (m + 1 + j) m); [lia|]. replace (m + 1 + j - m)%nat with (S j) by lia. rewrite Nat.add_1_r. reflexivity.
Qed.
Lemma den_at_0 m k cof : peval (den_of m k cof) 0 = 1.
Proof. rewrite den_eval. rewrite (sum_ext _ _ (fun _ => 0)); [rewrite sum_0; ring|]. intros j Hj. replace (j + 1)%nat with (S j) by lia. cbn [pow]. ring. Qed.

(* ---- the passes ---- *)
Lemma largest_spec n f : (0 < n)%nat -> (forall i, (i < n)%nat -> f i <= largest n f) /\ exists i, (i < n)%nat /\ f i = largest n f.
Proof.
  intros H. unfold largest. assert (N : map f (seq 0 n) <> []) by (destruct n; [lia|discriminate]). destruct (maxR_spec _ N) as [I M]. split.
  - intros i Hi. apply M. apply in_map. apply in_seq. lia.
  - apply in_map_iff in I. destruct I as [i [E Hi]]. apply in_seq in Hi. exists i. split; [lia|exact E].
Qed.
Lemma zero_free npt den x : has_zero npt den x = false -> forall i, (i < npt)%nat -> peval den (x i) <> 0.
Proof.
  intros H i Hi E. unfold has_zero in H. assert (T : existsb (fun i => if Req_EM_T (polyval den (x i)) 0 then true else false) (seq 0 npt) = true).
  { apply existsb_exists. exists i. split; [apply in_seq; lia|]. rewrite polyval_peval. destruct (Req_EM_T (peval den (x i)) 0); [reflexivity|contradiction]. }
  congruence.
Qed.
(* what is kept *)
Definition kept m k npt (x fs : nat -> R) (b : best) : Prop :=
  match snd b with None => fst b = 10 ^ 30 | Some (num, den) => List.length num = (m + 1)%nat /\ List.length den = (k + 1)%nat /\ peval den 0 = 1 /\ deviation npt x fs num den (fst b) end.
Lemma pass_spec pinv m k npt x fs wt ee mad b st : (0 < npt)%nat -> kept m k npt x fs b -> pass pinv m k npt x fs (wt, ee, mad, b) = Ok st ->
  kept m k npt x fs (snd st) /\ fst (snd st) <= fst b /\
  let bb := fun i => wt i * (fs i + Rabs mad * sgn (ee i)) in let cof := solution pinv npt (m + k + 1) (matrix_of m x wt bb) bb in
  exists d, deviation npt x fs (num_of m cof) (den_of m k cof) d /\ fst (snd st) <= d.
Proof.
  intros Hn K H. unfold pass in H. destruct b as [small c]. cbv zeta in H. set (bb := fun i => wt i * (fs i + Rabs mad * sgn (ee i))) in *. set (cof := solution pinv npt (m + k + 1) (matrix_of m x wt bb) bb) in *.
  destruct (has_zero npt (den_of m k cof) x) eqn:Z; [discriminate|]. set (dev := fun i => Rabs (polyval (num_of m cof) (x i) / polyval (den_of m k cof) (x i) - fs i)) in *.
  destruct (largest_spec npt dev Hn) as [M1 [i0 [Hi0 M2]]].
  assert (D : deviation npt x fs (num_of m cof) (den_of m k cof) (largest npt dev)).
  { split.
    - intros i Hi. split; [exact (zero_free npt _ x Z i Hi)|]. specialize (M1 i Hi). unfold dev in M1 at 1. rewrite !polyval_peval in M1. exact M1.
    - exists i0. split; [exact Hi0|]. unfold dev in M2 at 1. rewrite !polyval_peval in M2. exact M2. }
  assert (E : st = (dev, fun i => polyval (num_of m cof) (x i) / polyval (den_of m k cof) (x i) - fs i, sum_to npt dev / INR npt, if Rle_dec (largest npt dev) small then (largest npt dev, Some (num_of m cof, den_of m k cof)) else (small, c))) by (injection H as <-; reflexivity).
  subst st. cbn [snd fst]. destruct (Rle_dec (largest npt dev) small) as [L|L]; cbn [fst snd].
  - split; [|split; [exact L|]].
    + unfold kept. cbn [fst snd]. rewrite num_length, den_length. split; [reflexivity|]. split; [reflexivity|]. split; [apply den_at_0|exact D].
    + exists (largest npt dev). split; [exact D|lra].
  - split; [exact K|]. split; [lra|]. exists (largest npt dev). split; [exact D|lra].
Qed.
Lemma passes_spec n pinv m k npt x fs st st' : (0 < npt)%nat -> kept m k npt x fs (snd st) -> passes n pinv m k npt x fs st = Ok st' -> kept m k npt x fs (snd st') /\ fst (snd st') <= fst (snd st).
Proof.
  revert st. induction n as [|n IH]; intros st Hn K H.
  - injection H as <-. split; [exact K|lra].
  - cbn [passes] in H. destruct st as [[[wt ee] mad] b]. destruct (pass pinv m k npt x fs (wt, ee, mad, b)) as [st1|e] eqn:P; [|discriminate]. cbn [bind] in H.
    destruct (pass_spec _ _ _ _ _ _ _ _ _ _ _ Hn K P) as [K1 [L1 _]]. destruct (IH st1 Hn K1 H) as [K2 L2]. split; [exact K2|]. exact (Rle_trans _ _ _ L2 L1).
Qed.
(* the first pass is a plain least squares fit *)
Definition first_cof (pinv : nat -> nat -> (nat -> nat -> R) -> nat -> nat -> R) m k npt (x fs : nat -> R) : nat -> R :=
  let bb := fun i => 1 * (fs i + Rabs 0 * sgn 1) in solution pinv npt (m + k + 1) (matrix_of m x (fun _ => 1) bb) bb.
Lemma first_value (fs : nat -> R) (i : nat) : 1 * (fs i + Rabs 0 * sgn 1) = fs i. Proof. rewrite Rabs_R0. ring. Qed.
Lemma first_residual pinv m k npt x fs num den : is_inverse pinv -> (List.length num <= m + 1)%nat -> (List.length den <= k + 1)%nat -> peval den 0 = 1 ->
  residual npt x fs (num_of m (first_cof pinv m k npt x fs)) (den_of m k (first_cof pinv m k npt x fs)) <= residual npt x fs num den.
Proof.
  intros MP Ln Ld D. destruct (pair_vector num den m k Ln Ld D) as [c [Cn Cd]]. set (bb := fun i => 1 * (fs i + Rabs 0 * sgn 1)).
  pose proof (least_squares npt (m + k + 1) (matrix_of m x (fun _ => 1) bb) _ bb c (MP npt (m + k + 1)%nat (matrix_of m x (fun _ => 1) bb))) as L. unfold residual.
  rewrite (sum_ext npt (fun i => (peval num (x i) - fs i * peval den (x i)) ^ 2) (fun i => (sum_to (m + k + 1) (fun j => matrix_of m x (fun _ => 1) bb i j * c j) - bb i) ^ 2)).
  - eapply Rle_trans; [|exact L]. apply Req_le. apply sum_ext. intros i Hi. f_equal. change (fun j => matrix_of m x (fun _ => 1) bb i j * sum_to npt (fun k0 => pinv npt (m + k + 1)%nat (matrix_of m x (fun _ => 1) bb) j k0 * bb k0)) with (fun j => matrix_of m x (fun _ => 1) bb i j * first_cof pinv m k npt x fs j).
    rewrite matrix_times. unfold bb. rewrite first_value. ring.
  - intros i Hi. f_equal. rewrite matrix_times, Cn, Cd. unfold bb. rewrite first_value. ring.
Qed.
Lemma first_pass pinv m k npt x fs st : is_inverse pinv -> (0 < npt)%nat -> pass pinv m k npt x fs (fun _ => 1, fun _ => 1, 0, (10 ^ 30, None)) = Ok st ->
  kept m k npt x fs (snd st) /\ exists num den d, List.length num = (m + 1)%nat /\ List.length den = (k + 1)%nat /\ linear_fit npt x fs num den /\ deviation npt x fs num den d /\ fst (snd st) <= d.
Proof.
  intros MP Hn H. assert (K0 : kept m k npt x fs (10 ^ 30, None)) by reflexivity. destruct (pass_spec _ _ _ _ _ _ _ _ _ _ _ Hn K0 H) as (K & _ & d & D & Ld). split; [exact K|].
  exists (num_of m (first_cof pinv m k npt x fs)), (den_of m k (first_cof pinv m k npt x fs)), d. rewrite num_length, den_length. split; [reflexivity|]. split; [reflexivity|]. split; [|split; [exact D|exact Ld]].
  split; [apply den_at_0|]. intros num' den' L1 L2 D'. rewrite num_length in L1. rewrite den_length in L2. apply first_residual; [exact MP|lia|lia|exact D'].
Qed.
(* the values and points that padefitlsq uses *)
Definition sampled (f : input) (x : list R) : list R := match f with Values v => v | Function g => map g x end.
Definition chosen (m k : nat) (a b : R) (x : option (list R)) (end_points : bool) : res (list R) :=
  match x with Some x => Ok x | None => let* t := points (8 * (m + k + 1)) end_points in Ok (map (fun t => map_to_interval t a b) t) end.
Lemma lsq_inv pinv f m k a b x e num den : is_inverse pinv -> padefitlsq pinv f m k a b x e = Ok (num, den) ->
  exists xs, chosen m k a b x e = Ok xs /\ List.length xs = (8 * (m + k + 1))%nat /\ List.length (sampled f xs) = (8 * (m + k + 1))%nat /\
    let npt := (8 * (m + k + 1))%nat in
    exists d, kept m k npt (at_R xs) (at_R (sampled f xs)) (d, Some (num, den)) /\
    exists num1 den1 d1, List.length num1 = (m + 1)%nat /\ List.length den1 = (k + 1)%nat /\ linear_fit npt (at_R xs) (at_R (sampled f xs)) num1 den1 /\ deviation npt (at_R xs) (at_R (sampled f xs)) num1 den1 d1 /\ d <= d1.
Proof.
  intros MP H. unfold padefitlsq in H. cbv zeta in H. fold (chosen m k a b x e) in H. destruct (chosen m k a b x e) as [xs|er] eqn:Ex; [|discriminate]. cbn [bind] in H. fold (sampled f xs) in H. exists xs. split; [reflexivity|].
  destruct (negb (List.length xs =? 8 * (m + k + 1))%nat || negb (List.length (sampled f xs) =? 8 * (m + k + 1))%nat)%bool eqn:C; [discriminate|]. apply orb_false_iff in C. destruct C as [C1 C2]. apply negb_false_iff, Nat.eqb_eq in C1, C2. split; [exact C1|]. split; [exact C2|]. cbv zeta. set (npt := (8 * (m + k + 1))%nat) in *.
  change (passes 5 pinv m k npt (at_R xs) (at_R (sampled f xs)) (fun _ => 1, fun _ => 1, 0, (10 ^ 30, None))) with (let* st' := pass pinv m k npt (at_R xs) (at_R (sampled f xs)) (fun _ => 1, fun _ => 1, 0, (10 ^ 30, None)) in passes 4 pinv m k npt (at_R xs) (at_R (sampled f xs)) st') in H.
  destruct (pass pinv m k npt (at_R xs) (at_R (sampled f xs)) (fun _ => 1, fun _ => 1, 0, (10 ^ 30, None))) as [st1|er] eqn:P; [|discriminate]. cbn [bind] in H.
  destruct (passes 4 pinv m k npt (at_R xs) (at_R (sampled f xs)) st1) as [st2|er] eqn:Q; [|discriminate]. cbn [bind] in H.
  assert (Hn : (0 < npt)%nat) by (unfold npt; lia). destruct (first_pass _ _ _ _ _ _ _ MP Hn P) as [K1 (num1 & den1 & d1 & L1 & L2 & F & D & Le)].
  destruct (passes_spec _ _ _ _ _ _ _ _ _ Hn K1 Q) as [K2 Le2]. destruct (snd st2) as [d c] eqn:E2. cbn [snd fst] in *. destruct c as [c|]; [|discriminate]. injection H as ->. exists d. split; [exact K2|]. exists num1, den1, d1. repeat (split; [assumption|]). lra.
Qed.
