From mathcomp Require Import all_ssreflect all_algebra ssrAC.
From Verif Require Import KalmanModel KalmanSpec.
Set Implicit Arguments.
Unset Strict Implicit.
Import Order.TTheory GRing.Theory Num.Theory.
Local Open Scope ring_scope.

Lemma quadD (F : realFieldType) n (M N : 'M[F]_n) v : quadratic (M + N) v = quadratic M v + quadratic N v.
Proof. by rewrite /quadratic mulmxDr mulmxDl mxE. Qed.
Lemma quadB (F : realFieldType) n (M N : 'M[F]_n) v : quadratic (M - N) v = quadratic M v - quadratic N v.
Proof. by rewrite /quadratic mulmxBr mulmxBl !mxE. Qed.
Lemma quad_conj (F : realFieldType) n m (L : 'M[F]_(n, m)) (M : 'M[F]_m) v : quadratic (L *m M *m L^T) v = quadratic M (L^T *m v).
Proof. by rewrite /quadratic trmx_mul trmxK !mulmxA. Qed.
Lemma quad0v (F : realFieldType) n (M : 'M[F]_n) : quadratic M 0 = 0.
Proof. by rewrite /quadratic mulmx0 mxE. Qed.
Lemma pd_psd (F : realFieldType) n (M : 'M[F]_n) : pd M -> psd M.
Proof.
  case=> S Hp; split=> // v. have [->|/Hp/ltW //] := eqVneq v 0. by rewrite quad0v.
Qed.
Lemma pd_unit (F : realFieldType) n (M : 'M[F]_n) : pd M -> M \in unitmx.
Proof.
  case=> S Hp. rewrite -row_free_unit -kermx_eq0. apply/negPn/negP=> /rowV0Pn [v /sub_kermxP Hv v0].
  have := Hp v^T. rewrite /quadratic trmxK Hv mul0mx mxE ltxx => H.
  have : v^T != 0 by apply: contra v0 => /eqP E; rewrite -[v]trmxK E trmx0.
  by move/H.
Qed.
Lemma psd_conj (F : realFieldType) n m (L : 'M[F]_(n, m)) (M : 'M[F]_m) : psd M -> psd (L *m M *m L^T).
Proof. case=> S H; split; [by rewrite !trmx_mul trmxK S mulmxA | by move=> v; rewrite quad_conj]. Qed.
Lemma psdD (F : realFieldType) n (M N : 'M[F]_n) : psd M -> psd N -> psd (M + N).
Proof. case=> S H [S' H']; split; [by rewrite linearD /= S S' | by move=> v; rewrite quadD addr_ge0]. Qed.
Lemma psd_pdD (F : realFieldType) n (M N : 'M[F]_n) : psd M -> pd N -> pd (M + N).
Proof. case=> S H [S' H']; split; [by rewrite linearD /= S S' | by move=> v v0; rewrite quadD ltr_paddl // H']. Qed.

Lemma abel1 (V : zmodType) (P a b c d : V) : P - a - b + c = (P - d) + (c - b - (a - d)).
Proof. rewrite opprB. rewrite !addrA. rewrite [RHS](ACl (1*6*4*3*(2*5)))%AC /= addNr addr0 //. Qed.
Lemma abel2 (V : zmodType) (P a b c d : V) : P - a - (b - c) + d = P - a - b + (c + d).
Proof. by rewrite opprB !addrA [P - a + c - b]addrAC. Qed.

Definition inn (F : realFieldType) n m (H : 'M[F]_(m, n)) (R : 'M[F]_m) (P : 'M[F]_n) : 'M[F]_m := H *m (P *m H^T) + R.
Definition kgain (F : realFieldType) n m (H : 'M[F]_(m, n)) (R : 'M[F]_m) (P : 'M[F]_n) := P *m H^T *m invmx (inn H R P).
Lemma S_pd (F : realFieldType) n m (H : 'M[F]_(m, n)) R P : psd P -> pd R -> pd (inn H R P).
Proof. move=> HP HR; rewrite /inn. apply: psd_pdD => //. rewrite mulmxA. exact: psd_conj. Qed.
Lemma gain_some (F : realFieldType) n m (H : 'M[F]_(m, n)) R P : psd P -> pd R -> compute_gain H R P = Some (kgain H R P).
Proof. by move=> HP HR; rewrite /compute_gain -/(inn H R P) (pd_unit (S_pd H HP HR)). Qed.
Lemma KS (F : realFieldType) n m (H : 'M[F]_(m, n)) R P : psd P -> pd R -> kgain H R P *m inn H R P = P *m H^T.
Proof. by move=> HP HR; rewrite /kgain mulmxKV // pd_unit //; apply: S_pd. Qed.
Lemma SK (F : realFieldType) n m (H : 'M[F]_(m, n)) R P : psd P -> pd R -> inn H R P *m (kgain H R P)^T = H *m P.
Proof.
  move=> HP HR. have [E _] := S_pd H HP HR. have [EP _] := HP.
  rewrite -{1}E -trmx_mul (KS H HP HR) trmx_mul trmxK EP //.
Qed.
Lemma KHP (F : realFieldType) n m (H : 'M[F]_(m, n)) R P : psd P -> pd R ->
  kgain H R P *m (H *m P) = kgain H R P *m inn H R P *m (kgain H R P)^T.
Proof. by move=> HP HR; rewrite -(SK H HP HR) mulmxA. Qed.
Lemma error_cov_expand (F : realFieldType) n m (H : 'M[F]_(m, n)) R P (L : 'M[F]_(n, m)) : psd P -> pd R ->
  error_covariance H R P L = (P - kgain H R P *m (H *m P)) + (L - kgain H R P) *m inn H R P *m (L - kgain H R P)^T.
Proof.
  move=> HP HR. have [EP _] := HP. set K := kgain H R P. set S := inn H R P.
  have E1 : error_covariance H R P L = P - L *m (H *m P) - P *m H^T *m L^T + L *m S *m L^T.
  { rewrite /error_covariance linearB /= trmx1 trmx_mul mulmxBl mul1mx !mulmxBr !mulmx1 mulmxBl /S /inn.
    rewrite mulmxDr mulmxDl -!mulmxA. rewrite -abel2 //. }
  rewrite E1 KHP // linearB /= mulmxBl !mulmxBr !mulmxBl.
  have -> : K *m S *m L^T = P *m H^T *m L^T by rewrite KS.
  have -> : L *m S *m K^T = L *m (H *m P) by rewrite -mulmxA SK.
  exact: abel1.
Qed.

(* ---- one step ---- *)
Lemma update_cov (F : realFieldType) n m (H : 'M[F]_(m, n)) R P : psd P -> pd R ->
  let P' := update_covariance H P (kgain H R P) in
  P' = error_covariance H R P (kgain H R P) /\ psd P' /\ at_most P' P /\ forall L, at_most P' (error_covariance H R P L).
Proof.
  move=> HP HR P'. have E : P' = error_covariance H R P (kgain H R P).
  { by rewrite (error_cov_expand H _ HP HR) subrr !mul0mx addr0. }
  split=> //. split.
  { rewrite E. apply: psdD; [exact: psd_conj|apply: psd_conj; exact: pd_psd]. }
  have [_ HS] := pd_psd (S_pd H HP HR). split.
  - move=> v. rewrite /P' /update_covariance quadB (KHP H HP HR) quad_conj ler_subl_addr ler_addl. exact: HS.
  - move=> L v. rewrite (error_cov_expand H L HP HR) quadD quad_conj ler_addl. exact: HS.
Qed.
Lemma filter_main_spec (F : realFieldType) n m p (s : system F n m p) x P z u : psd P -> psd (sysQ s) -> pd (sysR s) ->
  let P1 := predict_covariance (sysA s) (sysQ s) P in let x1 := predict_state (sysA s) (sysB s) x u in
  exists K P', filter_main s x P z u = Some (x1 + K *m (z - sysH s *m x1), P') /\ psd P1 /\ P' = error_covariance (sysH s) (sysR s) P1 K /\ psd P' /\ at_most P' P1 /\ forall L, at_most P' (error_covariance (sysH s) (sysR s) P1 L).
Proof.
  move=> HP HQ HR P1 x1. have H1 : psd P1 by apply: psdD => //; apply: psd_conj.
  exists (kgain (sysH s) (sysR s) P1). exists (update_covariance (sysH s) P1 (kgain (sysH s) (sysR s) P1)).
  split; [|split=> //; exact: update_cov]. by rewrite /filter_main gain_some.
Qed.

(* ---- a whole session ---- *)
Lemma calls_cat (F : realFieldType) n p (s : system F n n p) a : forall o b,
  calls s o (a ++ b) = if calls s o a is Some (xs, o') then if calls s o' b is Some (ys, o'') then Some (xs ++ ys, o'') else None else None.
Proof.
  elim: a => [|[z u] a IH] o b /=. by case: (calls s o b) => [[? ?]|].
  case: (call s o z u) => [[x o']|] //. rewrite IH. case: (calls s o' a) => [[xs o'']|] //. by case: (calls s o'' b) => [[? ?]|].
Qed.
Definition good (F : realFieldType) n (o : object F n) : Prop := exists x P, o = Object (Some x) (Some P) false /\ psd P.
Lemma calls_good (F : realFieldType) n p (s : system F n n p) zu : psd (sysQ s) -> pd (sysR s) -> forall o, good o ->
  exists xs o', calls s o zu = Some (xs, o') /\ size xs = size zu /\ good o'.
Proof.
  move=> HQ HR. elim: zu => [|[z u] zu IH] o Ho /=; first by exists [::], o.
  case: Ho => x [P [-> HP]]. rewrite /call /=. have [K [P' [-> [_ [_ [HP' _]]]]]] := filter_main_spec x z u HP HQ HR.
  have [|xs [o' [-> [Hs Hg]]]] := IH (Object (Some (predict_state (sysA s) (sysB s) x u + K *m (z - sysH s *m predict_state (sysA s) (sysB s) x u))) (Some P') false).
  { by exists (predict_state (sysA s) (sysB s) x u + K *m (z - sysH s *m predict_state (sysA s) (sysB s) x u)), P'. }
  eexists; eexists; split; [reflexivity|]. by rewrite /= Hs.
Qed.
Lemma session_good (F : realFieldType) n p (s : system F n n p) x0 P0 zu : psd (sysQ s) -> pd (sysR s) ->
  (if P0 is Some P then psd P else True) ->
  exists xs o, calls s (new_object x0 P0) zu = Some (xs, o) /\ size xs = size zu /\ (zu != [::] -> exists x P, obx o = Some x /\ obP o = Some P /\ psd P).
Proof.
  move=> HQ HR H0. case: zu => [|[z u] zu] /=; first by exists [::], (new_object x0 P0).
  have HS : psd (set_P s (new_object x0 P0)).
  { rewrite /set_P /=. case: P0 H0 => [P|] // _. apply: psd_conj. exact: pd_psd. }
  have [x [o [Eo Ho]]] : exists x o, call s (new_object x0 P0) z u = Some (x, o) /\ good o.
  { rewrite /call /=. case: x0 HS => [x|] /=.
    - move=> HS. have [K [P' [-> [_ [_ [HP' _]]]]]] := filter_main_spec x z u HS HQ HR. eexists; eexists; split; [reflexivity|]. by eexists; eexists.
    - eexists; eexists; split; [reflexivity|]. by eexists; eexists. }
  rewrite Eo. have [xs [o' [-> [Hs [x' [P' [-> HP']]]]]]] := calls_good zu HQ HR Ho.
  eexists; eexists; split; [reflexivity|]. split; [by rewrite /= Hs|]. move=> _. by exists x', P'.
Qed.

(* reset has no effect once the filter has been called *)
Lemma reset_nothing (F : realFieldType) n p (s : system F n n p) o z u : good o -> call s (reset o) z u = call s o z u.
Proof. by case=> x [P [-> _]]. Qed.

(* noise-free observations and the right initial state *)
Lemma tracking (F : realFieldType) n p (s : system F n n p) us : forall o x P, o = Object (Some x) (Some P) false -> 
  psd P -> psd (sysQ s) -> pd (sysR s) ->
  let xs := trajectory (sysA s) (sysB s) x us in exists o', calls s o (zip [seq sysH s *m y | y <- xs] us) = Some (xs, o').
Proof.
  elim: us => [|u us IH] o x P -> HP HQ HR /=; first by eexists.
  rewrite /call /=. have [K [P' [-> [_ [_ [HP' _]]]]]] := filter_main_spec x (sysH s *m (sysA s *m x + sysB s *m u)) u HP HQ HR.
  rewrite /predict_state subrr mulmx0 addr0.
  have [o' ->] := IH _ _ _ (erefl (Object (Some (sysA s *m x + sysB s *m u)) (Some P') false)) HP' HQ HR. by eexists.
Qed.
Lemma tracking_new (F : realFieldType) n p (s : system F n n p) us x P : psd P -> psd (sysQ s) -> pd (sysR s) ->
  let xs := trajectory (sysA s) (sysB s) x us in exists o', calls s (new_object (Some x) (Some P)) (zip [seq sysH s *m y | y <- xs] us) = Some (xs, o').
Proof.
  move=> HP HQ HR. case: us => [|u us] /=; first by eexists.
  have [o' E] := tracking (u :: us) (erefl (Object (Some x) (Some P) false)) HP HQ HR. exists o'. exact: E.
Qed.

(* ---- the running mean ---- *)
Lemma mean_step (F : realFieldType) n (zs : seq 'cV[F]_n) z k : size zs = k.+1 ->
  mean (rcons zs z) = mean zs + k.+2%:R^-1 *: (z - mean zs).
Proof.
  move=> Hk. rewrite /mean size_rcons Hk -cats1 big_cat big_seq1 /=. set S := \sum_(y <- zs) y.
  have K1 : (k.+1%:R : F) != 0 by rewrite pnatr_eq0. have K2 : (k.+2%:R : F) != 0 by rewrite pnatr_eq0.
  rewrite scalerBr scalerDr scalerA addrA addrAC. congr (_ + _). rewrite -scalerBl. congr (_ *: _).
  apply: (mulfI K2). rewrite mulrBr mulrA divff // mul1r -[k.+2]addn1 natrD mulrDl mul1r divff // addrK //.
Qed.
Lemma shrink (F : realFieldType) k : let c := (k.+1%:R : F)^-1 in c / (c + 1) = k.+2%:R^-1.
Proof.
  move=> c. have K1 : (k.+1%:R : F) != 0 by rewrite pnatr_eq0. have K2 : (k.+2%:R : F) != 0 by rewrite pnatr_eq0.
  have -> : c + 1 = k.+2%:R / k.+1%:R by rewrite -[k.+2]addn1 natrD mulrDl divff // mul1r addrC.
  by rewrite invf_div mulrA /c mulVf // mul1r.
Qed.
Lemma constant_step (F : realFieldType) n p (R : 'M[F]_n) (B : 'M[F]_(n, p)) x z k : R \in unitmx ->
  filter_main (constant_system R B) x (k.+1%:R^-1 *: R) z 0 = Some (x + k.+2%:R^-1 *: (z - x), k.+2%:R^-1 *: R).
Proof.
  move=> HR. have K1 : (k.+1%:R : F) != 0 by rewrite pnatr_eq0. have K2 : (k.+2%:R : F) != 0 by rewrite pnatr_eq0.
  set c := (k.+1%:R : F)^-1. have Hc : c + 1 != 0. { apply: lt0r_neq0. apply: addr_gt0; [rewrite /c invr_gt0; exact: ltr0Sn|exact: ltr01]. }
  rewrite /filter_main /predict_covariance /predict_state /compute_gain /= !trmx1 !mulmx1 !mul1mx addr0 mulmx0 addr0.
  have -> : c *: R + R = (c + 1) *: R by rewrite scalerDl scale1r.
  rewrite unitmxZ ?unitfE // HR invmxZ ?unitmxZ ?unitfE // -scalemxAl -scalemxAr mulmxV // scalerA shrink.
  rewrite /update_state /update_covariance !mul1mx scalemx1 !mul_scalar_mx scalerA -scalerBl. congr (Some (_, _ *: _)).
  rewrite -{1}[c]mul1r -mulrBl. apply: (mulfI K2). rewrite mulrA mulrBr mulr1 divff // /c. 
  by rewrite -{1}[k.+2]addn1 natrD addrK divff.
Qed.
Lemma constant_calls (F : realFieldType) n p (R : 'M[F]_n) (B : 'M[F]_(n, p)) z : R \in unitmx -> forall zs,
  exists xs, calls (constant_system R B) (new_object None None) (observe p (z :: zs)) =
    Some (rcons xs (mean (z :: zs)), Object (Some (mean (z :: zs))) (Some ((size (z :: zs))%:R^-1 *: R)) false).
Proof.
  move=> HR zs. elim/last_ind: zs => [|zs y [xs IH]].
  - exists [::]. rewrite /= /call /= /set_P /= /h_inverse unitmx1 invmx1 trmx1 mul1mx mulmx1 mul1mx /mean big_seq1 /= invr1 !scale1r //.
  - exists (rcons xs (mean (z :: zs))). rewrite -rcons_cons /observe map_rcons -cats1 calls_cat -/(observe p _) IH /=.
    rewrite /call /= constant_step //. rewrite -(mean_step y (k := size zs)) // size_rcons cats1 //.
Qed.
(* every returned state is the mean of the observations so far *)
Lemma constant_states (F : realFieldType) n p (R : 'M[F]_n) (B : 'M[F]_(n, p)) z : R \in unitmx -> forall zs,
  exists o, calls (constant_system R B) (new_object None None) (observe p (z :: zs)) =
    Some ([seq mean (take k.+1 (z :: zs)) | k <- iota 0 (size zs).+1], o).
Proof.
  move=> HR zs. elim/last_ind: zs => [|zs y [o IH]].
  - eexists. rewrite /= /call /= /h_inverse unitmx1 invmx1 mul1mx /mean big_seq1 /= invr1 scale1r //.
  - have [xs E] := constant_calls B z HR zs. rewrite E in IH. case: IH => Exs Eo.
    eexists. rewrite -rcons_cons /observe map_rcons -cats1 calls_cat -/(observe p _) E /= /call /= constant_step //.
    rewrite -(mean_step y (k := size zs)) // size_rcons Exs. congr (Some (_, _)).
    change ([seq mean (z :: take k zs) | k <- iota 0 (size zs).+1] ++ [:: mean (rcons (z :: zs) y)] =
      [seq mean (z :: take k (rcons zs y)) | k <- iota 0 (size zs).+2]).
    rewrite -[in RHS](addn1 (size zs).+1) iotaD map_cat. congr (_ ++ _).
    + apply/eq_in_map=> k. rewrite mem_iota add0n ltnS => /= Hk. by rewrite -cats1 takel_cat.
    + rewrite add0n /=. congr [:: mean _]. rewrite take_oversize ?size_rcons //.
Qed.

Lemma call_object (F : realFieldType) n p (s : system F n n p) o z u x o' : call s o z u = Some (x, o') -> exists P, o' = Object (Some x) (Some P) false.
Proof.
  rewrite /call. case: ifP => _.
  - case: (obx o) => [x0|]; last by case=> <- <-; eexists.
    case: (filter_main _ _ _ _ _) => [[x' P']|] // [<- <-]. by eexists.
  - case: (obx o) => [x0|] //. case: (obP o) => [P0|] //. case: (filter_main _ _ _ _ _) => [[x' P']|] // [<- <-]. by eexists.
Qed.
Lemma calls_object (F : realFieldType) n p (s : system F n n p) zu : forall o xs o', zu != [::] -> calls s o zu = Some (xs, o') ->
  exists x P, o' = Object (Some x) (Some P) false.
Proof.
  elim: zu => [|[z u] zu IH] o xs o' // _ /=. case E: (call s o z u) => [[x o1]|] //.
  case E1: (calls s o1 zu) => [[ys o2]|] // [_ <-]. case: zu IH E1 => [|q zu] IH E1.
  - case: E1 => _ <-. have [P ->] := call_object E. by exists x, P.
  - exact: (IH _ _ _ isT E1).
Qed.
Lemma reset_after (F : realFieldType) n p (s : system F n n p) x0 P0 zu xs o z u : zu != [::] -> calls s (new_object x0 P0) zu = Some (xs, o) ->
  call s (reset o) z u = call s o z u.
Proof. move=> H /(calls_object H) [x [P ->]]. by []. Qed.
Lemma pd_one (F : realFieldType) n : pd (1%:M : 'M[F]_n).
Proof.
  split; first by rewrite trmx1. move=> v v0. rewrite /quadratic mulmx1 mxE.
  have H i : 0 <= v^T 0 i * v i 0 by rewrite mxE -expr2 sqr_ge0.
  have [i Hi] : exists i, v i 0 != 0.
  { apply/existsP. apply: contraR v0 => /existsPn N. apply/eqP/matrixP=> i j. rewrite ord1 mxE. apply/eqP/negPn. exact: N. }
  rewrite (bigD1 i) //= ltr_paddr //; [exact: sumr_ge0|]. by rewrite mxE -expr2 lt0r sqrf_eq0 Hi sqr_ge0.
Qed.
Lemma psd_zero (F : realFieldType) n : psd (0 : 'M[F]_n).
Proof. split; first by rewrite trmx0. by move=> v; rewrite /quadratic mulmx0 mul0mx mxE. Qed.
