(* Model of the link functions of the profiles of quantiles and probabilities (src/wafo/stats/estimation.py:67-218, cited as es) over exact reals.
   A float is an option: None stands for nan and for the infinities.  The distributions are those of RvModel, with location and scale. *)
From Coq Require Import Reals List String Bool.
From Verif Require Import Base RvModel.
Import ListNotations.
Local Open Scope R_scope.

(* floats: None is not a (finite) number *)
Definition float := option R.
Definition lift1 (f : R -> float) (x : float) : float := match x with Some x => f x | None => None end.
(* es:35-45 log and log1p, which are silent *)
Definition flog (x : R) : float := if Rlt_dec 0 x then Some (ln x) else None.
Definition flog1p (x : R) : float := flog (1 + x).
Definition fdiv (x y : R) : float := if Req_EM_T y 0 then None else Some (x / y).
(* x ** y for a positive base, the only one that is a number for every exponent *)
Definition fpow (x y : R) : float := if Rlt_dec 0 x then Some (x ^^ y) else None.
Definition fsqrt (x : R) : float := if Rle_dec 0 x then Some (sqrt x) else None.
Notation "'let?' x := e 'in' f" := (lift1 (fun x => f) e) (at level 200, x name, right associativity).

(* es:67-79 *)
Definition burr_link (x logsf : R) (phat : list R) (i : nat) : res float :=
  match phat with
  | [par_c; par_d; loc; scale] =>
      let log_cdf := flog (- expm1 logsf) in
      let x_norm := fdiv (x - loc) scale in
      (* log1p(-np.exp(-log_cdf / par_d)) *)
      let inner := let? l := log_cdf in let? q := fdiv (- l) par_d in flog1p (- exp q) in
      match i with
      | 1%nat => Ok (let? l := log_cdf in let? z := x_norm in let? p := fpow z (- par_c) in let? d := flog1p p in fdiv (- l) d)
      | 0%nat => Ok (let? n := inner in let? z := x_norm in let? d := flog z in fdiv n d)
      | 2%nat => Ok (let? n := inner in let? q := fdiv n par_c in Some (x - scale * exp q))
      | 3%nat => Ok (let? n := inner in let? q := fdiv n par_c in fdiv (x - loc) (exp q))
      | _ => Err IndexError
      end
  | _ => Err ValueError
  end.
(* es:82-87 *)
Definition expon_link (x logsf : R) (phat : list R) (i : nat) : res float :=
  match i with
  | 1%nat => match nth_error phat 0 with Some loc => Ok (fdiv (- (x - loc)) logsf) | None => Err IndexError end
  | 0%nat => match nth_error phat 1 with Some scale => Ok (Some (x + scale * logsf)) | None => Err IndexError end
  | _ => Err IndexError
  end.
(* es:90-112 *)
Definition weibull_min_link (x logsf : R) (phat : list R) (i : nat) : res float :=
  match phat with
  | [c; loc; scale] =>
      match i with
      | 0%nat => Ok (let? n := flog (- logsf) in let? z := fdiv (x - loc) scale in let? d := flog z in fdiv n d)
      | 1%nat => Ok (let? r := fdiv 1 c in let? p := fpow (- logsf) r in Some (x - scale * p))
      | 2%nat => Ok (let? r := fdiv 1 c in let? p := fpow (- logsf) r in fdiv (x - loc) p)
      | _ => Err IndexError
      end
  | _ => Err ValueError
  end.
(* es:115-127 *)
Definition exponweib_link (x logsf : R) (phat : list R) (i : nat) : res float :=
  match phat with
  | [a; c; loc; scale] =>
      let log_cdf := let? l := flog (- expm1 logsf) in Some (- l) in
      let x_norm := fdiv (x - loc) scale in
      (* -log1p(- log_cdf ** (1.0 / a)) *)
      let inner := let? l := log_cdf in let? r := fdiv 1 a in let? p := fpow l r in let? m := flog1p (- p) in Some (- m) in
      match i with
      | 0%nat => Ok (let? l := log_cdf in let? z := x_norm in let? p := fpow z c in let? d := flog (- expm1 (- p)) in fdiv (- l) d)
      | 1%nat => Ok (let? m := inner in let? n := flog m in let? z := x_norm in let? d := flog z in fdiv n d)
      | 2%nat => Ok (let? m := inner in let? r := fdiv 1 c in let? p := fpow m r in Some (x - p * scale))
      | 3%nat => Ok (let? m := inner in let? r := fdiv 1 c in let? p := fpow m r in fdiv (x - loc) p)
      | _ => Err IndexError
      end
  | _ => Err ValueError
  end.
(* es:130-150 *)
Definition genpareto_link (x logsf : R) (phat : list R) (i : nat) : res float :=
  match i with
  | 0%nat => Err NotImplementedError
  | S i' =>
      match phat with
      | [c; loc; scale] =>
          if Req_EM_T c 0 then expon_link x logsf [loc; scale] i'
          else match i with
               | 2%nat => Ok (fdiv ((x - loc) * c) (expm1 (- c * logsf)))
               | 1%nat => Ok (Some (x + scale * expm1 (c * logsf) / c))
               | _ => Err IndexError
               end
      | _ => Err ValueError
      end
  end.
(* es:153-160; the second test repeats the first *)
Definition gumbel_r_link (x logsf : R) (phat : list R) (i : nat) : res float :=
  match phat with
  | [loc; scale] =>
      let loglog_cdf := let? l := flog (- expm1 logsf) in flog (- l) in
      if Nat.eqb i 1 then Ok (let? l := loglog_cdf in fdiv (- (x - loc)) l)
      else if Nat.eqb i 1 then Ok (let? l := loglog_cdf in Some (x + scale * l))
      else Err IndexError
  | _ => Err ValueError
  end.
(* es:163-172; nan is passed on by _genpareto_link *)
Definition genextreme_link (x logsf : R) (phat : list R) (i : nat) : res float :=
  match i with
  | 0%nat => Err NotImplementedError
  | S i' =>
      match phat with
      | [c; loc; scale] =>
          if Req_EM_T c 0 then gumbel_r_link x logsf [loc; scale] i'
          else match (let? l := flog (- expm1 logsf) in flog (- l)) with
               | Some loglog_cdf => genpareto_link x loglog_cdf [- c; loc; scale] i
               | None => if Nat.leb i 2 then Ok None else Err IndexError
               end
      | _ => Err ValueError
      end
  end.
(* es:175-185 *)
Definition genexpon_link (x logsf : R) (phat : list R) (i : nat) : res float :=
  match phat with
  | [a; b; c; loc; scale] =>
      let x_norm := fdiv (x - loc) scale in
      let fact1 := let? z := x_norm in let? q := fdiv (expm1 (- c * z)) c in Some (z + q) in
      match i with
      | 0%nat => Ok (let? f := fact1 in Some (b * f + logsf))
      | 1%nat => Ok (let? f := fact1 in fdiv (a - logsf) f)
      | 2%nat | 3%nat | 4%nat => Err NotImplementedError
      | _ => Err IndexError
      end
  | _ => Err ValueError
  end.
(* es:188-193 *)
Definition rayleigh_link (x logsf : R) (phat : list R) (i : nat) : res float :=
  match i with
  | 1%nat => match nth_error phat 0 with Some loc => Ok (let? s := fsqrt (- 2 * logsf) in let? q := fdiv loc s in Some (x - q)) | None => Err IndexError end
  | 0%nat => match nth_error phat 1 with Some scale => Ok (let? s := fsqrt (- 2 * logsf) in Some (x - scale * s)) | None => Err IndexError end
  | _ => Err IndexError
  end.
(* es:196-205 *)
Definition trunclayleigh_link (x logsf : R) (phat : list R) (i : nat) : res float :=
  match phat with
  | [c; loc; scale] =>
      match i with
      | 0%nat => Ok (let? z := fdiv (x - loc) scale in let? q := fdiv (2 * logsf) z in Some (- q - z / 2))
      | 2%nat => Ok (let? s := fsqrt (c * c - 2 * logsf) in let? q := fdiv loc (s - c) in Some (x - q))
      | 1%nat => Ok (let? s := fsqrt (c * c - 2 * logsf) in Some (x - scale * (s - c)))
      | _ => Err IndexError
      end
  | _ => Err ValueError
  end.
(* es:208-218 LINKS.get(name) *)
Definition LINKS (name : string) : option (R -> R -> list R -> nat -> res float) :=
  if String.eqb name "expon" then Some expon_link else if String.eqb name "weibull_min" then Some weibull_min_link
  else if String.eqb name "frechet_r" then Some weibull_min_link else if String.eqb name "genpareto" then Some genpareto_link
  else if String.eqb name "genexpon" then Some genexpon_link else if String.eqb name "gumbel_r" then Some gumbel_r_link
  else if String.eqb name "rayleigh" then Some rayleigh_link else if String.eqb name "trunclayleigh" then Some trunclayleigh_link
  else if String.eqb name "genextreme" then Some genextreme_link else if String.eqb name "exponweib" then Some exponweib_link
  else if String.eqb name "burr" then Some burr_link else None.
(* cd:2649-2658 genexpon, not in RvModel because its quantile function is numerical: only the distribution function is used here *)
Definition genexpon_cdf (a b c x : R) : R := - expm1 ((- a - b) * x + b * (- expm1 (- c * x)) / c).
