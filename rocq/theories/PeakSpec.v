(* Peaks of signals and of surfaces. *)
From Coq Require Import Permutation.
From Verif Require Import Base CrossSpec RfcSpec.
Local Open Scope Z_scope.

(* the signal rises to its end, or to a flat piece at its end *)
Definition RisesToEnd (x : list Z) (e : nat) : Prop :=
  S e = List.length x /\ exists k, (k < e)%nat /\ at_ x k < at_ x e /\ forall j, (k < j <= e)%nat -> at_ x j = at_ x e.
Definition Peak (x : list Z) (e : nat) : Prop := TurnsDown x e \/ RisesToEnd x e.
(* the maximum of a rainflow cycle of range at least num among the turning points at the places t of z; mem is what lies behind them *)
Definition CyclePeak (z : list Z) (t : list nat) (mem : list Z) (num : Z) (e : nat) : Prop :=
  exists i p, (i < List.length t / 2)%nat /\ e = nth (2 * i + 1) t 0%nat /\
    let y := (map (at_ z) t ++ mem)%list in RainflowMin y (List.length t / 2) i p /\ num <= mx y i - mn y p.
(* a peak of the surface: a peak of its row, higher than the rows beside it *)
Definition SurfacePeak (rows : list (list Z)) (w idx : nat) : Prop :=
  exists r e, (r < List.length rows)%nat /\ idx = (e + r * w)%nat /\ Peak (nth r rows []) e /\
    forall r', (r' < List.length rows)%nat -> (r' = S r \/ S r' = r) -> at_ (nth r' rows []) e < at_ (nth r rows []) e.
(* top lists at most n of the things in P, the highest first; if one is missing there are n at least as high *)
Definition Top (P : nat -> Prop) (height : nat -> Z) (n : nat) (top : list nat) : Prop :=
  NoDup top /\ (forall e, In e top -> P e) /\ (List.length top <= n)%nat /\
  (forall a b, (a < b < List.length top)%nat -> height (nth b top 0%nat) <= height (nth a top 0%nat)) /\
  (forall e, P e -> ~ In e top -> List.length top = n /\ forall e', In e' top -> height e <= height e').
(* argsort gives an order in which the values do not decrease *)
Definition sorts (argsort : list Z -> list nat) : Prop :=
  forall l, Permutation (argsort l) (seq 0 (List.length l)) /\
    forall a b, (a < b < List.length l)%nat -> nth (nth a (argsort l) 0%nat) l 0 <= nth (nth b (argsort l) 0%nat) l 0.
(* the part of the list above the fraction p of the largest value *)
Definition above_part (height : nat -> Z) (p : Z * Z) (dmax : Z) (top : list nat) : list nat :=
  if fst p >? 0 then filter (fun e => snd p * height e >? fst p * dmax) top else top.
Definition largest (l : list Z) (v : Z) : Prop := In v l /\ forall a, In a l -> a <= v.
Definition several_extremes (x : list Z) : Prop :=
  exists e1 e2, (TurnsUp x e1 \/ TurnsDown x e1) /\ (TurnsUp x e2 \/ TurnsDown x e2) /\ e1 <> e2.
