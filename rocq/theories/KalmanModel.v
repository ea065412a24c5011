(* Model of the Kalman filter of src/wafo/sg_filter/_core.py:781-1050 over matrices with entries in an arbitrary
   ordered field (exact arithmetic).  None stands for np.linalg.LinAlgError. *)
From mathcomp Require Import all_ssreflect all_algebra.
Set Implicit Arguments.
Unset Strict Implicit.
Import GRing.Theory Num.Theory.
Local Open Scope ring_scope.

(* _core.py:1005-1006 _predict_state *)
Definition predict_state (F : realFieldType) n p (A : 'M[F]_n) (B : 'M[F]_(n, p)) (x : 'cV[F]_n) (u : 'cV[F]_p) : 'cV[F]_n :=
  A *m x + B *m u.
(* _core.py:1008-1010 _predict_covariance *)
Definition predict_covariance (F : realFieldType) n (A Q P : 'M[F]_n) : 'M[F]_n := A *m P *m A^T + Q.
(* _core.py:1012-1018 _compute_gain; np.linalg.inv raises for a singular matrix *)
Definition compute_gain (F : realFieldType) n m (H : 'M[F]_(m, n)) (R : 'M[F]_m) (P : 'M[F]_n) : option 'M[F]_(n, m) :=
  let PHT := P *m H^T in
  let innovation_covariance := H *m PHT + R in
  if innovation_covariance \in unitmx then Some (PHT *m invmx innovation_covariance) else None.
(* _core.py:1020-1022 _update_state_from_observation *)
Definition update_state (F : realFieldType) n m (H : 'M[F]_(m, n)) (x : 'cV[F]_n) (z : 'cV[F]_m) (K : 'M[F]_(n, m)) : 'cV[F]_n :=
  x + K *m (z - H *m x).
(* _core.py:1024-1026 _update_covariance *)
Definition update_covariance (F : realFieldType) n m (H : 'M[F]_(m, n)) (P : 'M[F]_n) (K : 'M[F]_(n, m)) : 'M[F]_n :=
  P - K *m (H *m P).

(* the fields that describe the system; H, A and Q after _set_H, _set_A, _set_Q (None means identity, identity, zero) *)
Record system (F : realFieldType) n m p := System
  { sysR : 'M[F]_m; sysA : 'M[F]_n; sysB : 'M[F]_(n, p); sysQ : 'M[F]_n; sysH : 'M[F]_(m, n) }.
(* _core.py:1028-1040 _filter_main: the new x and P *)
Definition filter_main (F : realFieldType) n m p (s : system F n m p) (x : 'cV[F]_n) (P : 'M[F]_n) (z : 'cV[F]_m) (u : 'cV[F]_p)
  : option ('cV[F]_n * 'M[F]_n) :=
  let P1 := predict_covariance (sysA s) (sysQ s) P in
  let x1 := predict_state (sysA s) (sysB s) x u in
  if compute_gain (sysH s) (sysR s) P1 is Some K then Some (update_state (sysH s) x1 z K, update_covariance (sysH s) P1 K) else None.

(* the mutable part of the object: x, P, and which of the two filter functions is installed *)
Record object (F : realFieldType) n := Object { obx : option 'cV[F]_n; obP : option 'M[F]_n; ob_first : bool }.
(* _core.py:914-922 __init__ *)
Definition new_object (F : realFieldType) n (x : option 'cV[F]_n) (P : option 'M[F]_n) : object F n := Object x P true.
(* _core.py:924-925 reset *)
Definition reset (F : realFieldType) n (o : object F n) : object F n := Object (obx o) (obP o) true.
(* _core.py:975-978: HI is the identity if H cannot be inverted *)
Definition h_inverse (F : realFieldType) n (H : 'M[F]_n) : 'M[F]_n := if H \in unitmx then invmx H else 1%:M.
(* _core.py:966-968 _set_P *)
Definition set_P (F : realFieldType) n p (s : system F n n p) (o : object F n) : 'M[F]_n :=
  if obP o is Some P then P else h_inverse (sysH s) *m sysR s *m (h_inverse (sysH s))^T.
(* _core.py:1042-1043 __call__ with _filter_first (989-1003); as many observed variables as state variables;
   the state returned and the object afterwards *)
(* (the last None, a state that was never set, is not reachable) *)
Definition call (F : realFieldType) n p (s : system F n n p) (o : object F n) (z : 'cV[F]_n) (u : 'cV[F]_p) : option ('cV[F]_n * object F n) :=
  let main x P := if filter_main s x P z u is Some (x', P') then Some (x', Object (Some x') (Some P') false) else None in
  if ob_first o then
    match obx o with
    | None => let x := h_inverse (sysH s) *m z in Some (x, Object (Some x) (Some (set_P s o)) false)
    | Some x => main x (set_P s o)
    end
  else if (obx o, obP o) is (Some x, Some P) then main x P else None.
(* a sequence of calls: the returned states and the object at the end *)
Fixpoint calls (F : realFieldType) n p (s : system F n n p) (o : object F n) (zu : seq ('cV[F]_n * 'cV[F]_p)) : option (seq 'cV[F]_n * object F n) :=
  match zu with
  | [::] => Some ([::], o)
  | (z, u) :: zu' =>
    if call s o z u is Some (x, o') then if calls s o' zu' is Some (xs, o'') then Some (x :: xs, o'') else None else None
  end.
