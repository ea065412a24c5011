From Coq Require Import Reals Lra Lia Psatz String.
From Coquelicot Require Import Coquelicot.
From Verif Require Import Base PolyModel KdeModel GridModel GridSpec ProcSpec ProcProofs CovModel CovSpec CovProofs CovProofs2 CovProofs3 SpcovModel SpcovSpec SpcovProofs3 SpectModel SpectSpec SpectProofs SpectProofs2 SpectProofs3.
Local Open Scope R_scope.

(* ---- gradients ---- *)
Definition dHm0 (mu : Z -> R) (a : Z) : R := match a with 0%Z => 2 / sqrt (mu 0%Z) | _ => 0 end.
Definition dTm01 (mu : Z -> R) (a : Z) : R := match a with 0%Z => / mu 1%Z | 1%Z => - mu 0%Z / mu 1%Z ^ 2 | _ => 0 end.
Definition dratio (u v : R) (i j a : Z) : R := if Z.eq_dec a i then / (2 * v * sqrt (u / v)) else if Z.eq_dec a j then - u / (2 * v ^ 2 * sqrt (u / v)) else 0.
Definition dTm02 (mu : Z -> R) (a : Z) : R := dratio (mu 0%Z) (mu 2%Z) 0 2 a.
Definition dTm24 (mu : Z -> R) (a : Z) : R := dratio (mu 2%Z) (mu 4%Z) 2 4 a.
Definition dTm_10 (mu : Z -> R) (a : Z) : R := match a with (-1)%Z => / mu 0%Z | 0%Z => - mu (-1)%Z / mu 0%Z ^ 2 | _ => 0 end.

Ltac orders H := cbn [orders In] in H; destruct H as [<-|[<-|[<-|[<-|[<-|[<-|[]]]]]]].
Ltac konst := apply (is_derive_const (V := R_NormedModule)).
Lemma is_dHm0 mu a : 0 < mu 0%Z -> In a orders -> is_derive (fun x => Hm0 (change mu a x)) (mu a) (dHm0 mu a).
Proof. intros P H. unfold Hm0. orders H; cbn; try konst. auto_derive; [easy|]. field. apply Rgt_not_eq, sqrt_lt_R0, P. Qed.
Lemma is_dTm01 mu a : 0 < mu 1%Z -> In a orders -> is_derive (fun x => Tm01 (change mu a x)) (mu a) (dTm01 mu a).
Proof. intros P H. unfold Tm01. orders H; cbn; try konst; auto_derive; try lra; try easy; field; lra. Qed.
Lemma is_dratio (u v : R) : 0 < u -> 0 < v -> is_derive (fun x => sqrt (x / v)) u (/ (2 * v * sqrt (u / v))) /\ is_derive (fun x => sqrt (u / x)) v (- u / (2 * v ^ 2 * sqrt (u / v))).
Proof.
  intros Hu Hv. assert (P : 0 < u / v) by now apply Rdiv_lt_0_compat. pose proof (sqrt_lt_R0 _ P).
  split; auto_derive; repeat split; try easy; try lra; unfold Rdiv in *; set (r := sqrt (u * / v)) in *; field; repeat split; try lra.
Qed.
Lemma is_dTm02 mu a : 0 < mu 0%Z -> 0 < mu 2%Z -> In a orders -> is_derive (fun x => Tm02 (change mu a x)) (mu a) (dTm02 mu a).
Proof. intros P Q H. unfold Tm02. destruct (is_dratio (mu 0%Z) (mu 2%Z) P Q) as [D1 D2]. orders H; cbn; try konst; [exact D1|exact D2]. Qed.
Lemma is_dTm24 mu a : 0 < mu 2%Z -> 0 < mu 4%Z -> In a orders -> is_derive (fun x => Tm24 (change mu a x)) (mu a) (dTm24 mu a).
Proof. intros P Q H. unfold Tm24. destruct (is_dratio (mu 2%Z) (mu 4%Z) P Q) as [D1 D2]. orders H; cbn; try konst; [exact D1|exact D2]. Qed.
Lemma is_dTm_10 mu a : 0 < mu 0%Z -> In a orders -> is_derive (fun x => Tm_10 (change mu a x)) (mu a) (dTm_10 mu a).
Proof. intros P H. unfold Tm_10. orders H; cbn; try konst; auto_derive; try lra; try easy; field; lra. Qed.
Lemma root u : 0 < u -> exists r, 0 < r /\ u = r * r /\ sqrt u = r.
Proof. intros H. exists (sqrt u). split; [now apply sqrt_lt_R0|]. split; [symmetry; apply sqrt_sqrt; lra|reflexivity]. Qed.
Lemma sqrt_ratio r q : 0 < r -> 0 < q -> sqrt (r * r * / (q * q)) = r / q.
Proof. intros Hr Hq. replace (r * r * / (q * q)) with (r / q * (r / q)) by (field; lra). apply sqrt_square. apply Rlt_le, Rdiv_lt_0_compat; easy. Qed.
Lemma sqrt_product r q : 0 < r -> 0 < q -> sqrt (r * r * (q * q)) = r * q.
Proof. intros Hr Hq. replace (r * r * (q * q)) with (r * q * (r * q)) by ring. apply sqrt_square. nra. Qed.

Lemma is_dsteep (g u v : R) : 0 < g -> 0 < u -> 0 < v ->
  is_derive (fun x => 2 * PI * (4 * sqrt x) / (g * sqrt (x / v) ^ 2)) u (- (4 * PI / g * v / (u * sqrt u))) /\ is_derive (fun x => 2 * PI * (4 * sqrt u) / (g * sqrt (u / x) ^ 2)) v (8 * PI / g / sqrt u).
Proof.
  intros Hg Hu Hv. destruct (root u Hu) as (r & Hr & -> & Er). destruct (root v Hv) as (q & Hq & -> & Eq). pose proof (sqrt_ratio r q Hr Hq) as Es.
  assert (P : 0 < r * r * / (q * q)) by (apply Rmult_lt_0_compat; [easy|now apply Rinv_0_lt_compat]). assert (Q : 0 < r / q) by now apply Rdiv_lt_0_compat.
  split; unfold Rdiv; auto_derive; rewrite ?Es, ?Er; repeat split; try easy; try nra; try (apply Rgt_not_eq; apply Rmult_lt_0_compat; nra); try (apply Rgt_not_eq; unfold Rdiv in *; nra); field; lra.
Qed.
Lemma is_dirr (u v w : R) : 0 < u -> 0 < v -> 0 < w ->
  is_derive (fun x => v / sqrt (x * w)) u (- (v / (2 * u * sqrt (u * w)))) /\ is_derive (fun x => x / sqrt (u * w)) v (/ sqrt (u * w)) /\ is_derive (fun x => v / sqrt (u * x)) w (- (v / (2 * w * sqrt (u * w)))).
Proof.
  intros Hu Hv Hw. destruct (root u Hu) as (r & Hr & -> & Er). destruct (root w Hw) as (q & Hq & -> & Eq). pose proof (sqrt_product r q Hr Hq) as Es.
  assert (P : 0 < r * r * (q * q)) by nra. assert (Q : r * q <> 0) by nra.
  split; [|split]; auto_derive; rewrite ?Es; repeat split; try easy; field; lra.
Qed.
Lemma is_dnarrow (u t v : R) : 0 < t -> 0 < u * v / t ^ 2 - 1 ->
  let e := sqrt (u * v / t ^ 2 - 1) in
  is_derive (fun x => sqrt (x * v / t ^ 2 - 1)) u (v / t ^ 2 / (2 * e)) /\ is_derive (fun x => sqrt (u * v / x ^ 2 - 1)) t (- (u * v / t ^ 3 / e)) /\ is_derive (fun x => sqrt (u * x / t ^ 2 - 1)) v (u / t ^ 2 / (2 * e)).
Proof.
  intros Ht P e. pose proof (sqrt_lt_R0 _ P) as Q. fold e in Q. unfold Rdiv in *. assert (T : t <> 0) by lra.
  split; [|split]; auto_derive; repeat split; try easy; try nra; change (t * (t * 1)) with (t ^ 2); try (fold (Rminus (u * v * / t ^ 2) 1)); fold e; field; lra.
Qed.
Lemma is_dbroad (u v w : R) : 0 < u -> 0 < w -> 0 < 1 - v ^ 2 / (u * w) ->
  let e := sqrt (1 - v ^ 2 / (u * w)) in
  is_derive (fun x => sqrt (1 - v ^ 2 / (x * w))) u (v ^ 2 / (u ^ 2 * w) / (2 * e)) /\ is_derive (fun x => sqrt (1 - x ^ 2 / (u * w))) v (- (v / (u * w) / e)) /\ is_derive (fun x => sqrt (1 - v ^ 2 / (u * x))) w (v ^ 2 / (u * w ^ 2) / (2 * e)).
Proof.
  intros Hu Hw P e. pose proof (sqrt_lt_R0 _ P) as Q. fold e in Q. unfold Rdiv in *. assert (T : u * w <> 0) by nra.
  split; [|split]; auto_derive; repeat split; try easy; try nra; change (1 + - (v * (v * 1) * / (u * w))) with (1 - v ^ 2 * / (u * w)); fold e; field; repeat split; nra.
Qed.
Definition dsteep (g : R) (mu : Z -> R) (a : Z) : R :=
  match a with 0%Z => - (4 * PI / g * mu 2%Z / (mu 0%Z * sqrt (mu 0%Z))) | 2%Z => 8 * PI / g / sqrt (mu 0%Z) | _ => 0 end.
Definition dirr (mu : Z -> R) (a : Z) : R :=
  let r := sqrt (mu 0%Z * mu 4%Z) in match a with 0%Z => - (mu 2%Z / (2 * mu 0%Z * r)) | 2%Z => / r | 4%Z => - (mu 2%Z / (2 * mu 4%Z * r)) | _ => 0 end.
Definition dnarrow (mu : Z -> R) (a : Z) : R :=
  let u := mu 0%Z in let t := mu 1%Z in let v := mu 2%Z in let e := sqrt (u * v / t ^ 2 - 1) in
  match a with 0%Z => v / t ^ 2 / (2 * e) | 1%Z => - (u * v / t ^ 3 / e) | 2%Z => u / t ^ 2 / (2 * e) | _ => 0 end.
Definition dbroad (mu : Z -> R) (a : Z) : R :=
  let u := mu 0%Z in let v := mu 2%Z in let w := mu 4%Z in let e := sqrt (1 - v ^ 2 / (u * w)) in
  match a with 0%Z => v ^ 2 / (u ^ 2 * w) / (2 * e) | 2%Z => - (v / (u * w) / e) | 4%Z => v ^ 2 / (u * w ^ 2) / (2 * e) | _ => 0 end.
Lemma is_dsteep' g mu a : 0 < g -> 0 < mu 0%Z -> 0 < mu 2%Z -> In a orders -> is_derive (fun x => steepness g (change mu a x)) (mu a) (dsteep g mu a).
Proof. intros Hg P Q H. unfold steepness, Hm0, Tm02. destruct (is_dsteep g (mu 0%Z) (mu 2%Z) Hg P Q) as [D1 D2]. orders H; cbn -[pow]; try konst; [exact D1|exact D2]. Qed.
Lemma is_dirr' mu a : 0 < mu 0%Z -> 0 < mu 2%Z -> 0 < mu 4%Z -> In a orders -> is_derive (fun x => irregularity (change mu a x)) (mu a) (dirr mu a).
Proof. intros P Q S H. unfold irregularity. destruct (is_dirr (mu 0%Z) (mu 2%Z) (mu 4%Z) P Q S) as (D1 & D2 & D3). orders H; cbn -[pow]; try konst; [exact D1|exact D2|exact D3]. Qed.
Lemma is_dnarrow' mu a : 0 < mu 1%Z -> 0 < mu 0%Z * mu 2%Z / mu 1%Z ^ 2 - 1 -> In a orders -> is_derive (fun x => narrowness (change mu a x)) (mu a) (dnarrow mu a).
Proof. intros P Q H. unfold narrowness. destruct (is_dnarrow (mu 0%Z) (mu 1%Z) (mu 2%Z) P Q) as (D1 & D2 & D3). orders H; cbn -[pow]; try konst; [exact D1|exact D2|exact D3]. Qed.
Lemma is_dbroad' mu a : 0 < mu 0%Z -> 0 < mu 4%Z -> 0 < 1 - mu 2%Z ^ 2 / (mu 0%Z * mu 4%Z) -> In a orders -> is_derive (fun x => broadness (change mu a x)) (mu a) (dbroad mu a).
Proof. intros P S Q H. unfold broadness. destruct (is_dbroad (mu 0%Z) (mu 2%Z) (mu 4%Z) P S Q) as (D1 & D2 & D3). orders H; cbn -[pow]; try konst; [exact D1|exact D2|exact D3]. Qed.

Lemma delta_intro mu sigma g h G H v : (forall a, In a orders -> is_derive (fun x => g (change mu a x)) (mu a) (G a)) -> (forall a, In a orders -> is_derive (fun x => h (change mu a x)) (mu a) (H a)) ->
  v = sumR (map (fun a => sumR (map (fun b => G a * H b * sigma (a + b)%Z) orders)) orders) -> delta_covariance mu sigma g h v.
Proof. intros DG DH E. exists G, H. split; [|exact E]. intros a Ha. split; [now apply DG|now apply DH]. Qed.
Lemma delta_unique mu sigma g h v w : delta_covariance mu sigma g h v -> delta_covariance mu sigma g h w -> v = w.
Proof.
  intros (G & H & D & ->) (G' & H' & D' & ->).
  assert (E : forall a, In a orders -> G a = G' a /\ H a = H' a).
  { intros a Ha. destruct (D a Ha) as [D1 D2]. destruct (D' a Ha) as [D3 D4]. split; [rewrite <- (is_derive_unique _ _ _ D1); now apply is_derive_unique|rewrite <- (is_derive_unique _ _ _ D2); now apply is_derive_unique]. }
  f_equal. apply map_ext_in. intros a Ha. f_equal. apply map_ext_in. intros b Hb. destruct (E a Ha) as [-> _]. destruct (E b Hb) as [_ ->]. reflexivity.
Qed.
