(* Specification of the parameters of waves.  x are the samples, t their instants. *)
From Coq Require Import Reals List ZArith String.
From Verif Require Import CrossSpec WparModel.
Import ListNotations.
Local Open Scope R_scope.

Definition instant (t : list R) (j : nat) : R := nth j t 0.
Definition value (x : list Z) (j : nat) : R := IZR (at_ x j).
Definition ascending (t : list R) : Prop := forall a b, (a < b < List.length t)%nat -> instant t a < instant t b.
(* the straight line through the samples j and j+1 is zero at s, which lies between them *)
Definition zero_at (t : list R) (x : list Z) (j : nat) (s : R) : Prop :=
  instant t j <= s <= instant t (S j) /\ (s - instant t j) * value x (S j) + (instant t (S j) - s) * value x j = 0.

(* what is reported for wave number i, of which d, u, d', u' are the zero crossings (down, up, down, up) *)
Definition describes (x : list Z) (t : list R) (w : wpar) (i d u d' u' : nat) : Prop :=
  DownCross x 0 d /\ UpCross x 0 u /\ DownCross x 0 d' /\ UpCross x 0 u' /\
  exists lo c lo' sd su sd' su',
    LowestIn x d u lo /\ HighestIn x u d' c /\ LowestIn x d' u' lo' /\
    zero_at t x d sd /\ zero_at t x u su /\ zero_at t x d' sd' /\ zero_at t x u' su' /\
    nth i (Ac w) 0 = value x c /\ nth i (At w) 0 = - value x lo /\ nth (S i) (At w) 0 = - value x lo' /\
    nth i (Hd w) 0 = value x c - value x lo /\ nth i (Hu w) 0 = value x c - value x lo' /\
    nth i (Td w) 0 = sd' - sd /\ nth i (Tu w) 0 = su' - su /\
    nth i (Tcf w) 0 = instant t c - su /\ nth i (Tcb w) 0 = sd' - instant t c.

(* the documented steepness and wave height of wave number i *)
Inductive steep := Fastest | FrontSpeed | BackSpeed | FrontSteep | BackSteep | TotalDown | TotalUp.
Definition number (s : steep) : Z :=
  match s with Fastest => 0 | FrontSpeed => 1 | BackSpeed => -1 | FrontSteep => 2 | BackSteep => -2 | TotalDown => 3 | TotalUp => -3 end%Z.
Definition name (s : steep) : string :=
  match s with Fastest => "maxVcfVcb" | FrontSpeed => "Vcf" | BackSpeed => "Vcb" | FrontSteep => "Scf" | BackSteep => "Scb"
             | TotalDown => "StHd" | TotalUp => "StHu" end%string.
Definition documented (s : steep) (g ac hd hu td tu tcf tcb S H : R) : Prop :=
  match s with
  | Fastest => S = Rmax (ac / tcf) (ac / tcb) /\ (ac / tcb < ac / tcf -> H = hd) /\ (ac / tcf < ac / tcb -> H = hu) /\ (H = hd \/ H = hu)
  | FrontSpeed => S = ac / tcf /\ H = hd
  | BackSpeed => S = ac / tcb /\ H = hu
  | FrontSteep => S = 2 * PI * ac / td / tcf / g /\ H = hd
  | BackSteep => S = 2 * PI * ac / tu / tcb / g /\ H = hu
  | TotalDown => S = 2 * PI * hd / td ^ 2 / g /\ H = hd
  | TotalUp => S = 2 * PI * hu / tu ^ 2 / g /\ H = hu
  end.
Definition nothing (w : wpar) : Prop :=
  Ac w = [] /\ At w = [] /\ Hu w = [] /\ Hd w = [] /\ Tu w = [] /\ Td w = [] /\ Tcf w = [] /\ Tcb w = [].
