(* What the index conversions and findoutliers are supposed to do *)
From Verif Require Import Base IndexModel.
Local Open Scope Z_scope.

(* subscripts within the shape *)
Definition in_shape (shape subs : list Z) : Prop := Forall2 (fun d a => 0 <= a < d) shape subs.
(* the position of the element with these subscripts in row-major order: each subscript counts the
   elements of a whole sub-array of the remaining dimensions *)
Fixpoint row_major (shape subs : list Z) : Z :=
  match shape, subs with d :: s, a :: t => a * prodZ s + row_major s t | _, _ => 0 end.
(* in column-major order the first subscript varies fastest *)
Fixpoint column_major (shape subs : list Z) : Z :=
  match shape, subs with d :: s, a :: t => a + d * column_major s t | _, _ => 0 end.
Definition position (shape subs : list Z) (o : order) : Z :=
  match o with OrderC => row_major shape subs | OrderF => column_major shape subs end.

(* the samples with missing ones set to zero *)
Definition filled (x : list (option Z)) : list Z := map (fun a => match a with None => 0 | Some v => v end) x.
Definition at_Z (l : list Z) (i : nat) : Z := nth i l 0.
(* steps between consecutive samples, and changes of steps *)
Definition dz (z : list Z) (i : nat) : Z := at_Z z (S i) - at_Z z i.
Definition ddz (z : list Z) (i : nat) : Z := dz z (S i) - dz z i.
(* sample j is suspicious: it follows a large step up, precedes a large step down (also for changes of
   steps), belongs to a run of equal values, or is next to the beginning or the end of one *)
Definition small (z : list Z) (zcrit : Z) (i : nat) : Prop := Z.abs (dz z i) <= zcrit.
Definition run_edge (z : list Z) (zcrit : Z) (k : nat) : Prop :=
  (1 <= k)%nat /\ (S k < length z)%nat /\ ((small z zcrit (k - 1) /\ ~ small z zcrit k) \/ (~ small z zcrit (k - 1) /\ small z zcrit k)).
Definition suspicious (z : list Z) (zcrit dcrit ddcrit : Z) (j : nat) : Prop :=
  (exists i, j = S i /\ (S i < length z)%nat /\ dz z i > dcrit) \/
  ((S j < length z)%nat /\ dz z j < - dcrit) \/
  (exists i, j = S i /\ (S (S i) < length z)%nat /\ ddz z i > ddcrit) \/
  ((S (S j) < length z)%nat /\ ddz z j < - ddcrit) \/
  (exists i, j = S i /\ (S i < length z)%nat /\ small z zcrit i) \/
  (exists k, run_edge z zcrit k /\ (S j = k \/ j = k \/ j = S k)).
(* no sample is missing, or one other than the first is *)
Definition replaced (x : list (option Z)) : Prop :=
  (forall i, nth i x (Some 0) <> None) \/ (exists i, (0 < i)%nat /\ nth i x (Some 0) = None).
