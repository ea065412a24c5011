(* Specification of rainflow filtering, in terms of the samples only. *)
From Verif Require Import Base CrossSpec.
Local Open Scope Z_scope.

(* ---- the rainflow (hysteresis) filter -------------------------------------- *)
(* signed sample: the value itself for an upward leg, its negation for a
   downward leg, so that "up" statements cover both directions *)
Definition sy (x : list Z) (up : bool) (k : nat) : Z := if up then at_ x k else - at_ x k.

(* a range d counts for the filter: at least h (method 0) or more than h (method 1) *)
Definition counts (method : nat) (h d : Z) : Prop :=
  match method with O => h <= d | _ => h < d end.

(* [a, b] is a leg: it ends at its highest (lowest) sample and its range counts *)
Definition Leg (x : list Z) (method : nat) (h : Z) (up : bool) (a b : nat) : Prop :=
  (a < b)%nat /\ counts method h (sy x up b - sy x up a) /\
  forall k, (a <= k <= b)%nat -> sy x up k <= sy x up b.

(* inside [a, b] nothing is lost: a is the unique lowest sample from a on, and no
   excursion against the direction of the leg counts *)
Definition Calm (x : list Z) (method : nat) (h : Z) (up : bool) (a b : nat) : Prop :=
  (forall k, (a < k <= b)%nat -> sy x up a < sy x up k) /\
  (forall k l, (a <= k <= l)%nat -> (l <= b)%nat -> ~ counts method h (sy x up k - sy x up l)).

(* the first leg [0, b]: the signal stays close to its first value until it leaves
   it at f, in the direction of the leg, and nothing counts against it after f *)
Definition FirstLeg (x : list Z) (method : nat) (h : Z) (up : bool) (b : nat) : Prop :=
  exists f, (0 < f <= b)%nat /\
    (forall k, (k < f)%nat -> ~ counts method h (Z.abs (at_ x k - at_ x 0))) /\
    counts method h (sy x up f - sy x up 0) /\
    (forall k l, (f <= k <= l)%nat -> (l <= b)%nat -> ~ counts method h (sy x up k - sy x up l)).

Definition flip (up : bool) (k : nat) : bool := if Nat.even k then up else negb up.

(* t is the list of indices the filter keeps *)
Definition Filtered (x : list Z) (method : nat) (h : Z) (t : list nat) : Prop :=
  increasing t /\ (exists r, t = 0%nat :: r) /\
  (forall i, In i t -> (i < length x)%nat) /\
  (exists up, forall k, (S k < length t)%nat ->
     let a := nth k t 0%nat in let b := nth (S k) t 0%nat in let d := flip up k in
     Leg x method h d a b /\
     (k = 0%nat -> FirstLeg x method h d b) /\
     (k <> 0%nat -> Calm x method h d a b)) /\
  (* nothing after the last kept index moves away from it by more than h *)
  (forall i, (last t 0%nat <= i < length x)%nat -> Z.abs (at_ x i - at_ x (last t 0%nat)) <= h).

(* ---- the rainflow cycle definition (Rychlik) ---------------------------------- *)
(* y = min, max, min, max, ..., min: the i-th maximum and the i-th minimum *)
Definition mx (y : list Z) (i : nat) : Z := at_ y (2 * i + 1).
Definition mn (y : list Z) (i : nat) : Z := at_ y (2 * i).

(* going back from maximum i the signal does not exceed it before minimum j *)
Definition LeftSpan (y : list Z) (i j : nat) : Prop :=
  (j <= i)%nat /\ forall k, (j <= k < i)%nat -> mx y k <= mx y i.
(* the lowest (and among equals the latest) minimum of the left span *)
Definition LeftMin (y : list Z) (i p : nat) : Prop :=
  LeftSpan y i p /\
  forall j, LeftSpan y i j -> mn y p <= mn y j /\ (mn y j = mn y p -> (j <= p)%nat).

(* going forward from maximum i the signal stays below it until minimum j *)
Definition RightSpan (y : list Z) (nc i j : nat) : Prop :=
  (i < j <= nc)%nat /\ forall k, (i < k < j)%nat -> mx y k < mx y i.
Definition RightMin (y : list Z) (nc i p : nat) : Prop :=
  RightSpan y nc i p /\
  forall j, RightSpan y nc i j -> mn y p <= mn y j /\ (mn y j = mn y p -> (j <= p)%nat).

(* the level of maximum i is reached again later *)
Definition Reached (y : list Z) (nc i : nat) : Prop :=
  exists k, (i < k < nc)%nat /\ mx y i <= mx y k.

(* minimum p closes the rainflow cycle of maximum i: the higher of the two
   side minima when the level is reached again, the left one otherwise *)
Definition RainflowMin (y : list Z) (nc i p : nat) : Prop :=
  exists l r, LeftMin y i l /\ RightMin y nc i r /\
    ((Reached y nc i /\ mn y l < mn y r /\ p = r) \/
     ((~ Reached y nc i \/ mn y r <= mn y l) /\ p = l)).

(* idx belongs to a rainflow cycle of range at least h *)
Definition InRainflow (y : list Z) (nc : nat) (h : Z) (idx : nat) : Prop :=
  exists i p, (i < nc)%nat /\ RainflowMin y nc i p /\ h <= mx y i - mn y p /\
    (idx = (2 * i + 1)%nat \/ idx = (2 * p)%nat).

(* the first three points do not run monotonically *)
Definition turns_at_start (y : list Z) : Prop :=
  ~ (at_ y 0 > at_ y 1 /\ at_ y 1 > at_ y 2) /\ ~ (at_ y 0 < at_ y 1 /\ at_ y 1 < at_ y 2).

(* the two ways to reach the Rychlik algorithm: the C library, or method 2 *)
Definition rychlik_method (method : option nat) : Prop := method = None \/ method = Some 2%nat.
