(* Property theorems C01 - C09.  Vocabulary: CrossSpec.v. *)
From Coq Require Import String Reals Lra.
From Verif Require Import Base CrossModel CrossSpec ListFacts CrossProofs TpProofs TcProofs
  EcrossModel EcrossProofs.
Local Open Scope Z_scope.
Local Open Scope list_scope.

(* ---- C01 ------------------------------------------------------------------- *)
Theorem c01_findcross_exact : forall m x v, x <> [] ->
  exists l, findcross m x v None = Ok l /\ increasing l /\
            forall i, In i l <-> Crossing x v i.
Proof. exact findcross_exact. Qed.
Print Assumptions c01_findcross_exact.

(* a signal that starts on the level, touches it, crosses through a plateau *)
Example c01_case : findcross Numba [0; 0; 2; 0; 3; 0; 0; -1; 0; -2; 5] 0 None = Ok [1; 6; 9]%nat.
Proof. reflexivity. Qed.

(* ---- C02 ------------------------------------------------------------------- *)
Theorem c02_crossings_alternate : forall m x v, x <> [] ->
  exists l, findcross m x v None = Ok l /\
   (alternating (UpCross x v) (DownCross x v) l \/ alternating (DownCross x v) (UpCross x v) l).
Proof.
  exact (fun m x v H => match findcross_none_alt m x v H with
         | ex_intro _ vi (conj E (conj _ A)) => ex_intro _ vi (conj E A) end).
Qed.
Print Assumptions c02_crossings_alternate.

Theorem c02_kind_u : forall m x v, x <> [] ->
  exists l, findcross m x v (Some "u"%string) = Ok l /\ increasing l /\
            forall i, In i l <-> UpCross x v i.
Proof. exact findcross_u. Qed.
Print Assumptions c02_kind_u.

Theorem c02_kind_d : forall m x v, x <> [] ->
  exists l, findcross m x v (Some "d"%string) = Ok l /\ increasing l /\
            forall i, In i l <-> DownCross x v i.
Proof. exact findcross_d. Qed.
Print Assumptions c02_kind_d.

Example c02_case : findcross Clib [3; 1; 4; 1; 5; 1; 1; 9] 2 (Some "d"%string) = Ok [0; 2; 4]%nat
  /\ findcross Clib [3; 1; 4; 1; 5; 1; 1; 9] 2 (Some "u"%string) = Ok [1; 3; 6]%nat.
Proof. split; reflexivity. Qed.

(* ---- C03 ------------------------------------------------------------------- *)
(* at most one crossing is dropped in front (only one of the wrong direction) and
   at most one at the back (only when the count would have the wrong parity) *)
Theorem c03_wave_kinds : forall m x v w, x <> [] ->
  exists full l pre suf,
    findcross m x v None = Ok full /\ findcross m x v (Some (wave_name w)) = Ok l /\
    full = pre ++ l ++ suf /\
    alternating (wave_first w x v) (wave_second w x v) (l ++ suf) /\
    (List.length pre <= 1)%nat /\ (List.length suf <= 1)%nat /\
    (l <> [] -> Nat.odd (List.length l) = wave_odd w) /\
    (forall i, In i pre -> wave_second w x v i) /\
    (suf <> [] -> Nat.odd (List.length (l ++ suf)) <> wave_odd w).
Proof. exact findcross_wave_kind. Qed.
Print Assumptions c03_wave_kinds.

Theorem c03_unknown_kind : forall m x v k, x <> [] ->
  string_in k ["du"; "all"; "d"; "u"; "dw"; "uw"; "tw"; "cw"]%string = false ->
  (exists i, Crossing x v i) ->
  findcross m x v (Some k) = Err ValueError.
Proof. exact findcross_unknown. Qed.
Print Assumptions c03_unknown_kind.

Example c03_case : let x := [3; 1; 4; 1; 5; 1; 1; 9] in
  findcross Numba x 2 None = Ok [0; 1; 2; 3; 4; 6]%nat /\
  findcross Numba x 2 (Some "dw"%string) = Ok [0; 1; 2; 3; 4]%nat /\
  findcross Numba x 2 (Some "uw"%string) = Ok [1; 2; 3; 4; 6]%nat /\
  findcross Numba x 2 (Some "tw"%string) = Ok [0; 1; 2; 3; 4; 6]%nat /\
  findcross Numba x 2 (Some "cw"%string) = Ok [1; 2; 3; 4]%nat /\
  findcross Numba x 2 (Some "zz"%string) = Err ValueError.
Proof. repeat split; reflexivity. Qed.

(* ---- C04 ------------------------------------------------------------------- *)
(* MemoryError is the model's outcome for an access outside the signal or a
   write beyond the len(x) slots of the index buffer *)
Theorem c04_c_equals_python : forall x v, x <> [] ->
  exists l, c_findcross x v = Ok l /\
            nb_findcross (signs x v) (List.length x) = Ok l /\
            (List.length l <= List.length x)%nat.
Proof. exact c_equals_python. Qed.
Print Assumptions c04_c_equals_python.

Example c04_case : c_findcross [3; 1; 4; 1; 5; 1; 1; 9] 2 = Ok [0; 1; 2; 3; 4; 6]%nat
  /\ c_findcross [] 2 = Err MemoryError.
Proof. split; reflexivity. Qed.

(* ---- C05 ------------------------------------------------------------------- *)
Theorem c05_findextrema_exact : forall m x, (2 <= List.length x)%nat ->
  exists l, findextrema m x = Ok l /\ increasing l /\
  (forall e, In e l <-> TurnsUp x e \/ TurnsDown x e) /\
  (alternating (TurnsUp x) (TurnsDown x) l \/ alternating (TurnsDown x) (TurnsUp x) l).
Proof. exact findextrema_exact. Qed.
Print Assumptions c05_findextrema_exact.

Theorem c05_findextrema_monotone_between : forall m x l, (2 <= List.length x)%nat ->
  findextrema m x = Ok l -> exists up, legs x up l.
Proof. exact findextrema_legs. Qed.
Print Assumptions c05_findextrema_monotone_between.

Example c05_case : findextrema Numba [1; 1; 4; 4; 2; 2; 3; 3] = Ok [1; 3; 5]%nat.
Proof. reflexivity. Qed.

(* ---- C06 ------------------------------------------------------------------- *)
(* never an error; None only when the signal has at most one extreme *)
Theorem c06_findtp_total : forall m x neg kind, (2 <= List.length x)%nat ->
  exists r, findtp0 m x neg kind = Ok r.
Proof. exact findtp0_never_fails. Qed.
Print Assumptions c06_findtp_total.

Theorem c06_findtp_none : forall m x, (2 <= List.length x)%nat ->
  findtp0 m x false None = Ok None <->
  (forall e1 e2, (TurnsUp x e1 \/ TurnsDown x e1) -> (TurnsUp x e2 \/ TurnsDown x e2) -> e1 = e2).
Proof. exact findtp0_none. Qed.
Print Assumptions c06_findtp_none.

(* the hypothesis at_ x 0 <> at_ x 1 is needed only for strictness of the first
   leg, see c06_initial_plateau_refuted *)
Theorem c06_findtp_turning_points : forall m x ind, (2 <= List.length x)%nat ->
  findtp0 m x false None = Ok (Some ind) ->
  increasing ind /\ (3 <= List.length ind)%nat /\
  last ind 0%nat = (List.length x - 1)%nat /\
  (forall e, TurnsUp x e \/ TurnsDown x e -> In e ind) /\
  (forall e, In e ind -> e = 0%nat \/ e = (List.length x - 1)%nat \/ TurnsUp x e \/ TurnsDown x e) /\
  legs x false (tl ind) /\
  rising x (nth 0 ind 0%nat) (nth 1 ind 0%nat) /\
  at_ x (nth 0 ind 0%nat) <= at_ x (nth 1 ind 0%nat) /\
  (at_ x 0 <> at_ x 1 -> legs x true ind).
Proof. exact findtp0_turning_points. Qed.
Print Assumptions c06_findtp_turning_points.

(* finding: after an initial flat piece followed by a fall the first two turning
   points have the same value *)
Theorem c06_initial_plateau_refuted :
  exists x ind, findtp0 Numba x false None = Ok (Some ind) /\
    (2 <= List.length x)%nat /\
    at_ x (nth 0 ind 0%nat) = at_ x (nth 1 ind 0%nat).
Proof. exact findtp0_plateau. Qed.
Print Assumptions c06_initial_plateau_refuted.

Theorem c06_negative_h : forall m x kind,
  findtp0 m x true kind = Ok (Some (seq 0 (List.length x))).
Proof. exact findtp0_neg. Qed.
Print Assumptions c06_negative_h.

Theorem c06_findtp_astm : forall m x ind, (2 <= List.length x)%nat -> at_ x 0 <> at_ x 1 ->
  findtp0 m x false (Some "astm"%string) = Ok (Some ind) ->
  increasing ind /\ hd 1%nat ind = 0%nat /\ last ind 0%nat = (List.length x - 1)%nat /\
  (forall e, In e ind <-> e = 0%nat \/ e = (List.length x - 1)%nat \/ TurnsUp x e \/ TurnsDown x e) /\
  exists up, legs x up ind.
Proof. exact findtp0_astm. Qed.
Print Assumptions c06_findtp_astm.

Example c06_case :
  findtp0 Numba [3; 1; 4; 1; 5; 5; 2; 6; 7] false None = Ok (Some [1; 2; 3; 5; 6; 8]%nat) /\
  findtp0 Numba [3; 1; 4; 1; 5; 5; 2; 6; 7] false (Some "astm"%string)
    = Ok (Some [0; 1; 2; 3; 5; 6; 8]%nat).
Proof. split; reflexivity. Qed.

(* ---- C07 ------------------------------------------------------------------- *)
Theorem c07_findtp_wave : forall m x k ind, (2 <= List.length x)%nat -> at_ x 0 <> at_ x 1 ->
  (k = "mw" \/ k = "Mw")%string ->
  findtp0 m x false (Some k) = Ok (Some ind) ->
  increasing ind /\ Nat.odd (List.length ind) = true /\
  legs x (String.eqb k "mw") ind.
Proof. exact findtp0_wave. Qed.
Print Assumptions c07_findtp_wave.

Example c07_case :
  findtp0 Numba [3; 1; 4; 1; 5; 5; 2; 6; 7] false (Some "mw"%string) = Ok (Some [1; 2; 3; 5; 6]%nat) /\
  findtp0 Numba [3; 1; 4; 1; 5; 5; 2; 6; 7] false (Some "Mw"%string) = Ok (Some [2; 3; 5; 6; 8]%nat).
Proof. split; reflexivity. Qed.

(* ---- C08 ------------------------------------------------------------------- *)
Theorem c08_findtc_default : forall m x v vi,
  findcross m x v None = Ok vi -> (3 <= List.length vi)%nat ->
  exists itc, findtc m x v None = Ok (itc, vi) /\
  List.length itc = (List.length vi - 1)%nat /\
  forall j, (S j < List.length vi)%nat ->
    let a := nth j vi 0%nat in let b := nth (S j) vi 0%nat in let e := nth j itc 0%nat in
    (DownCross x v a -> LowestIn x a b e) /\ (UpCross x v a -> HighestIn x a b e).
Proof. exact findtc_default. Qed.
Print Assumptions c08_findtc_default.

Theorem c08_findtc_wave : forall m x v w vi,
  findcross m x v (Some (wave_name w)) = Ok vi -> (3 <= List.length vi)%nat ->
  exists itc, findtc m x v (Some (wave_name w)) = Ok (itc, vi) /\
  List.length itc = (List.length vi - 1)%nat /\
  forall j, (S j < List.length vi)%nat ->
    let a := nth j vi 0%nat in let b := nth (S j) vi 0%nat in let e := nth j itc 0%nat in
    (DownCross x v a -> LowestIn x a b e) /\ (UpCross x v a -> HighestIn x a b e).
Proof. exact findtc_wave. Qed.
Print Assumptions c08_findtc_wave.

Theorem c08_findtc_few : forall m x v kind vi,
  findcross m x v kind = Ok vi -> (List.length vi <= 2)%nat -> findtc m x v kind = Ok ([], []).
Proof. exact findtc_few. Qed.
Print Assumptions c08_findtc_few.

(* finding: for the documented kind 'all' ('du') with an even number of
   crossings the last reported index is not the extreme of its stretch *)
Theorem c08_kind_all_refuted :
  exists x v itc vi j, findtc Numba x v (Some "all"%string) = Ok (itc, vi) /\
    (S j < List.length vi)%nat /\ DownCross x v (nth j vi 0%nat) /\
    ~ LowestIn x (nth j vi 0%nat) (nth (S j) vi 0%nat) (nth j itc 0%nat).
Proof. exact findtc_all_bad. Qed.
Print Assumptions c08_kind_all_refuted.

Example c08_case : findtc Numba [3; 1; 0; 1; 4; 6; 5; 1; -1; 0; 3] 2 None
  = Ok ([2; 5; 8]%nat, [0; 3; 6; 9]%nat).
Proof. reflexivity. Qed.

(* ---- C09 ------------------------------------------------------------------- *)
Theorem c09_ecross_line : forall t f v i ti tj fi fj,
  nth_error t i = Some ti -> nth_error t (S i) = Some tj ->
  nth_error f i = Some fi -> nth_error f (S i) = Some fj ->
  fi <> fj -> ti <> tj ->
  exists s, ecross1 t f v i = Ok s /\ line ti fi tj fj s = v /\
    (forall s', line ti fi tj fj s' = v -> s' = s) /\
    ((ti < tj)%R -> ((fi <= v <= fj)%R \/ (fj <= v <= fi)%R) -> (ti <= s <= tj)%R).
Proof. exact ecross1_line. Qed.
Print Assumptions c09_ecross_line.

Theorem c09_ecross_pointwise : forall t f v ind r, ecross t f ind v = Ok r ->
  List.length r = List.length ind /\
  forall k, (k < List.length ind)%nat -> ecross1 t f v (nth k ind 0%nat) = Ok (nth k r 0%R).
Proof. exact ecross_map. Qed.
Print Assumptions c09_ecross_pointwise.

Theorem c09_ecross_range : forall t f v i, List.length t = List.length f ->
  (List.length t <= S i)%nat -> ecross1 t f v i = Err IndexError.
Proof. exact ecross_out_of_range. Qed.
Print Assumptions c09_ecross_range.

Example c09_case : ecross [0; 1; 3]%R [0; 2; -2]%R [0; 1]%nat 1%R = Ok [1/2; 3/2]%R.
Proof. unfold ecross, ecross1, geti. simpl. apply f_equal, f_equal2; [field|apply f_equal2; [field|reflexivity]]; lra. Qed.
