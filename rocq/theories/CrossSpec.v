(* Specification of level crossings and turning points, stated only in terms of
   the samples of the signal. *)
From Coq Require Import String.
From Verif Require Import Base.
Local Open Scope list_scope.
Local Open Scope Z_scope.

(* sample number k *)
Definition at_ (x : list Z) (k : nat) : Z := nth k x 0.

(* x crosses the level v upwards between the samples i and i+1: sample i+1 is
   above v, and walking back from i over samples equal to v one meets no sample
   above v first. *)
Definition UpCross (x : list Z) (v : Z) (i : nat) : Prop :=
  (S i < List.length x)%nat /\ v < at_ x (S i) /\
  forall k, (k <= i)%nat ->
    (forall m, (k < m <= i)%nat -> at_ x m = v) -> at_ x k <= v.

Definition DownCross (x : list Z) (v : Z) (i : nat) : Prop :=
  (S i < List.length x)%nat /\ at_ x (S i) < v /\
  forall k, (k <= i)%nat ->
    (forall m, (k < m <= i)%nat -> at_ x m = v) -> v <= at_ x k.

Definition Crossing x v i := UpCross x v i \/ DownCross x v i.

(* strictly increasing index lists *)
Definition increasing (l : list nat) : Prop :=
  forall a b, (a < b < List.length l)%nat -> (nth a l 0 < nth b l 0)%nat.

(* a list of indices whose members alternate between P and Q, starting with P *)
Fixpoint alternating {A} (P Q : A -> Prop) (l : list A) : Prop :=
  match l with
  | [] => True
  | a :: l' => P a /\ alternating Q P l'
  end.

(* the signal turns downwards / upwards at sample e (last sample of the flat
   piece): a local maximum / minimum *)
Definition TurnsDown (x : list Z) (e : nat) : Prop :=
  (0 < e)%nat /\ (S e < List.length x)%nat /\ at_ x (S e) < at_ x e /\
  forall k, (k < e)%nat ->
    (forall m, (k < m <= e)%nat -> at_ x m = at_ x e) -> at_ x k <= at_ x e.

Definition TurnsUp (x : list Z) (e : nat) : Prop :=
  (0 < e)%nat /\ (S e < List.length x)%nat /\ at_ x e < at_ x (S e) /\
  forall k, (k < e)%nat ->
    (forall m, (k < m <= e)%nat -> at_ x m = at_ x e) -> at_ x e <= at_ x k.

(* x does not decrease (increase) anywhere between samples a and b *)
Definition rising (x : list Z) (a b : nat) : Prop :=
  forall k, (a <= k < b)%nat -> at_ x k <= at_ x (S k).
Definition falling (x : list Z) (a b : nat) : Prop :=
  forall k, (a <= k < b)%nat -> at_ x (S k) <= at_ x k.

(* the indices l of x are strict turning points: legs are alternately rising
   and falling, monotone, and each leg changes the value strictly *)
Fixpoint legs (x : list Z) (up : bool) (l : list nat) : Prop :=
  match l with
  | a :: ((b :: _) as t) =>
      (if up then rising x a b /\ at_ x a < at_ x b
       else falling x a b /\ at_ x b < at_ x a) /\ legs x (negb up) t
  | _ => True
  end.

(* the four wave definitions of findcross and what each promises *)
Inductive wave := DW | UW | TW | CW.
Definition wave_name (w : wave) : string :=
  match w with DW => "dw" | UW => "uw" | TW => "tw" | CW => "cw" end%string.
(* DW and TW start with a down-crossing, UW and CW with an up-crossing *)
Definition wave_starts_down (w : wave) : bool :=
  match w with DW | TW => true | UW | CW => false end.
(* DW and UW consist of whole waves (odd number of crossings), TW and CW of
   half waves (even number of crossings) *)
Definition wave_odd (w : wave) : bool :=
  match w with DW | UW => true | TW | CW => false end.
Definition wave_first (w : wave) (x : list Z) (v : Z) : nat -> Prop :=
  if wave_starts_down w then DownCross x v else UpCross x v.
Definition wave_second (w : wave) (x : list Z) (v : Z) : nat -> Prop :=
  if wave_starts_down w then UpCross x v else DownCross x v.

(* e is the position of a smallest (largest) sample among a+1 .. b *)
Definition LowestIn (x : list Z) (a b e : nat) : Prop :=
  (a < e <= b)%nat /\ forall k, (a < k <= b)%nat -> at_ x e <= at_ x k.
Definition HighestIn (x : list Z) (a b e : nat) : Prop :=
  (a < e <= b)%nat /\ forall k, (a < k <= b)%nat -> at_ x k <= at_ x e.
