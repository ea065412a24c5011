(* The model spectra of src/wafo/spectrum/models.py: Bretschneider, Jonswap, TMA, Torsethaugen, McCormick, Ochi-Hubble and Wallop, with
   jonswap_peakfact, jonswap_seastate and phi1.  Arithmetic is exact and a spectrum is given by its value at one frequency; the code
   applies it to each entry of an array.  Warnings are not modelled.  scipy's gammaln, quad, fminbound and the wave number of w2k (see
   WaveModel for w2k itself) are parameters. *)
From Coq Require Import Reals Lra.
From Verif Require Import Base PolyModel WaveModel.
Local Open Scope R_scope.

(* models.py:57-122 _gengamspec; [gammaln] is scipy's *)
Definition gengamspec (gammaln : R -> R) (N M wn : R) : R :=
  let B := N / M in
  let C := (N - 1) / M in
  if Rlt_dec 0 wn then
    let logwn := ln wn in
    let logA := C * ln B + ln M - gammaln C in
    exp (logA - N * logwn - B * exp (- M * logwn))
  else 0.

(* models.py:164-177 chk_seastate, without _chk_extra_param, which only warns except for OchiHubble *)
Definition chk_seastate (Hm0 Tp : R) : res unit :=
  if Rlt_dec Hm0 0 then Err ValueError else if Rle_dec Tp 0 then Err ValueError else Ok tt.

(* models.py:186-262 Bretschneider *)
Record bret := Bret { bHm0 : R; bTp : R; bN : R; bM : R }.
Definition bretschneider (Hm0 Tp N M : R) (chk : bool) : res bret :=
  let* _ := if chk then chk_seastate Hm0 Tp else Ok tt in Ok (Bret Hm0 Tp N M).
Definition bret_call (gammaln : R -> R) (s : bret) (w : R) : R :=
  if Rlt_dec 0 (bHm0 s) then
    let wp := 2 * PI / bTp s in
    (bHm0 s / 4) ^ 2 / wp * gengamspec gammaln (bN s) (bM s) (w / wp)
  else 0.

(* models.py:265-332 jonswap_peakfact for Tp > 0.  For Hm0 <= 0 the quotient is infinite or nan and the factor 1 *)
Definition jonswap_peakfact (Hm0 Tp : R) : R :=
  if Rlt_dec 0 Hm0 then
    let x := Tp / sqrt Hm0 in
    if Rle_dec x (514285714285714 / 10 ^ 14) then
      let D := 36 / 1000 - 56 / 10000 * x in
      Rmin (exp (3484 / 1000 * (1 - 1975 / 10000 * D * x ^ 4))) 7
    else 1
  else 1.

(* models.py:335-439 jonswap_seastate for u10, fetch, g > 0: the power of a positive number.  Hm0, Tp, gamma, sigmaA, sigmaB, Ag *)
Inductive fetch_law := Hasselman73 | Hasselman76 | Lewis.
Record seastate := Seastate { sHm0 : R; sTp : R; sgamma : R; ssigmaA : R; ssigmaB : R; sAg : R }.
Definition jonswap_seastate (u10 fetch : R) (m : fetch_law) (g : R) : seastate :=
  let zeta := g * fetch / u10 ^ 2 in
  let result A ny epsilon1 sa sb gam := Seastate (4 * sqrt epsilon1 * u10 ^ 2 / g) (u10 / (ny * g)) gam sa sb A in
  match m with
  | Hasselman73 => result (76 / 1000 * Rpower zeta (- 22 / 100)) (35 / 10 * Rpower zeta (- 33 / 100)) (991 / 10 ^ 10 * Rpower zeta (11 / 10)) (7 / 100) (9 / 100) (33 / 10)
  | Hasselman76 => result (662 / 10000 * Rpower zeta (- 2 / 10)) (284 / 100 * Rpower zeta (- 3 / 10)) (16 / 10 ^ 8 * zeta) (7 / 100) (9 / 100) (33 / 10)
  | Lewis =>
      let A := 74 / 1000 * Rpower zeta (- 22 / 100) in
      let ny := 357 / 100 * Rpower zeta (- 33 / 100) in
      result A ny (3512 / 10 ^ 7 * A * Rpower ny (- 4) * Rpower zeta (- 1 / 10)) (5468 / 10 ^ 5 * Rpower ny (- 32 / 100)) (78314 / 10 ^ 6 * Rpower ny (- 16 / 100))
        (Rmax (1754 / 100 * Rpower zeta (- 28384 / 10 ^ 5)) 1)
  end.

(* models.py:442-663 Jonswap.  The first letter of the method; gamma and Ag are None or numbers *)
Inductive meth := Integration | Parametric | Custom | Unknown.
Record jons := Jons { jHm0 : R; jTp : R; jgamma : R; jsigmaA : R; jsigmaB : R; jAg : R; jN : R; jM : R }.
(* 637-645 peak_e_factor; gamma >= 1, so the power is the one of a positive number *)
Definition peak_e_factor (gamma sigmaA sigmaB wn : R) : R :=
  let w := Rmax wn 0 in
  let sab := if Rlt_dec 1 w then sigmaB else sigmaA in
  Rpower gamma (exp (- (1 / 2 * ((w - 1) / sab) ^ 2))).
(* 569-571 *)
Definition localspec (gammaln : R -> R) (gamma sigmaA sigmaB N M wn : R) : R := peak_e_factor gamma sigmaA sigmaB wn * gengamspec gammaln N M wn.
(* 581-605; N - 2 * M ** 0.28 + 5.3 > 0 and log(gamma) > 0 *)
Definition parametric_ag (N M gamma : R) : R :=
  let f1NM := 41 / 10 * Rpower (N - 2 * Rpower M (28 / 100) + 53 / 10) (- (145 / 100) * Rpower M (1 / 10) + 96 / 100) in
  let f2NM := (22 / 10 * Rpower M (- (33 / 10)) + 57 / 100) * Rpower N (- (58 / 100) * Rpower M (37 / 100) + 53 / 100) - 104 / 100 * Rpower M (- (19 / 10)) + 94 / 100 in
  (1 + f1NM * Rpower (ln gamma) f2NM) / gamma.
(* 573-577: the operators bind as written *)
Definition between (a x b : R) : bool := if Rle_dec a x then if Rle_dec x b then true else false else false.
Definition check_parametric_ag (N M gamma : R) : res unit :=
  if (between 3 N 50 || between 2 M (95 / 10) && between 1 gamma 20)%bool then Ok tt else Err ValueError.
(* 607-610: None <= 0 raises TypeError *)
Definition custom_ag (Ag : option R) : res R := match Ag with None => Err TypeError | Some a => if Rle_dec a 0 then Err ValueError else Ok a end.
(* 612-621; [quad f a b] is scipy's integral *)
Definition integrate_ag (quad : (R -> R) -> R -> R -> R) (f : R -> R) (wnc : R) : res R :=
  if Rlt_dec wnc 1 then Err ValueError else Ok (1 / (quad f 0 1 + quad f 1 wnc)).
(* 529-548 and 623-635 *)
Definition jonswap (gammaln : R -> R) (quad : (R -> R) -> R -> R -> R) (Hm0 Tp : R) (gamma : option R) (sigmaA sigmaB : R) (Ag : option R) (N M : R)
  (method : meth) (wnc : R) (chk : bool) : res jons :=
  let gam := match gamma with None => jonswap_peakfact Hm0 Tp | Some y => if Rlt_dec y 1 then jonswap_peakfact Hm0 Tp else y end in
  let* a :=
    if Req_EM_T gam 1 then Ok 1
    else match Ag with
         | Some _ => custom_ag Ag
         | None => match method with
                   | Integration => integrate_ag quad (localspec gammaln gam sigmaA sigmaB N M) wnc
                   | Parametric => let* _ := check_parametric_ag N M gam in Ok (parametric_ag N M gam)
                   | Custom => custom_ag Ag
                   | Unknown => Err KeyError
                   end
         end in
  let* _ := if chk then chk_seastate Hm0 Tp else Ok tt in
  Ok (Jons Hm0 Tp gam sigmaA sigmaB a N M).
(* 647-663 *)
Definition jons_call (gammaln : R -> R) (s : jons) (w : R) : R :=
  if Rlt_dec 0 (jHm0 s) then
    let wp := 2 * PI / jTp s in
    (jHm0 s / 4) ^ 2 / wp * jAg s * peak_e_factor (jgamma s) (jsigmaA s) (jsigmaB s) (w / wp) * gengamspec gammaln (jN s) (jM s) (w / wp)
  else 0.
(* the defaults of __init__: gamma, sigmaA, sigmaB, Ag, N, M, method, wnc *)
Definition jonswap_default gammaln quad Hm0 Tp := jonswap gammaln quad Hm0 Tp None (7 / 100) (9 / 100) None 5 4 Integration 6.

(* models.py:666-711 phi1; [k2] is the wave number w2k finds for depth h; None is infinite depth *)
Definition phi1 (k2 : R) (w : R) (h : option R) (g : R) : R :=
  match h with
  | None => 1
  | Some h =>
      let k1 := deep_k g w in
      if Req_EM_T k1 0 then 0
      else
        let dw1 := 2 * w / g in
        let k2h := k2 * h in
        let den := tanh k2h + k2h / cosh k2h ^ 2 in
        let dw2 := dw1 / den in
        (k1 / k2) ^ 3 * dw2 / dw1
  end.
(* models.py:802-811 Tmaspec.__call__ *)
Definition tma_call (gammaln : R -> R) (s : jons) (k2 : R) (h : option R) (g w : R) : R := jons_call gammaln s w * phi1 k2 w h g.

(* models.py:926-1047 Torsethaugen._init_spec for Hm0 > 0.  The parameters of the two Jonswap spectra; an infinite Tpw, never read because
   Hpw is then 0, is represented by 0 *)
Record sea := Sea { seaH : R; seaT : R; seaG : R; seaN : R; seaM : R }.
Definition torsethaugen_parts (gammaln : R -> R) (Hm0 Tp gravity : R) : sea * sea :=
  let Tf := 66 / 10 * Rpower Hm0 (1 / 3) in
  let Tl := 2 * sqrt Hm0 in
  let Tu := 25 in
  let El := Rmin (Rmax ((Tf - Tp) / (Tf - Tl)) 0) 1 in
  let Eu := Rmin (Rmax ((Tp - Tf) / (Tu - Tf)) 0) 1 in
  let r := 857 / 1000 in
  if Rlt_dec Tp Tf then
    let Nw := 1 / 2 * sqrt Hm0 + 32 / 10 in
    let Rpw := Rmin ((1 - 7 / 10) * exp (- (El / (1 / 2)) ^ 2) + 7 / 10) 1 in
    let gammaw := 35 * (1 + 35 / 10 * exp (- Hm0 / 1)) * Rpower (2 * PI / gravity * Rpw * Hm0 / Tp ^ 2) r in
    (Sea (Rpw * Hm0) Tp (Rmax gammaw 1) Nw 4, Sea (sqrt (1 - Rpw ^ 2) * Hm0) (Tf + 2) 1 Nw 4)
  else
    let Ns := 1 / 2 * sqrt Hm0 + 32 / 10 in
    let Rps := Rmin ((1 - 6 / 10) * exp (- (Eu / (3 / 10)) ^ 2) + 6 / 10) 1 in
    let gammas := 35 * (1 + 35 / 10 * exp (- Hm0 / 1)) * Rpower (2 * PI / gravity * Hm0 / Tf ^ 2) r * (1 + 6 * Eu) in
    let Mw := 4 * (1 - 7 / 10 * exp (- Hm0 / 3)) in
    let Hpw := sqrt (1 - Rps ^ 2) * Hm0 in
    let C := (Ns - 1) / Mw in
    let B := Ns / Mw in
    let G0w := Rpower B C * Mw / exp (gammaln C) in
    let Tpw := if Rlt_dec 0 Hpw then Rpower (16 * (8 / 100) * (1 - exp (- Hm0 / 3)) * Rpower (4 / 10) Ns / (G0w * Hpw ^ 2)) (-1 / (Ns - 1)) else 0 in
    (Sea Hpw Tpw 1 Ns Mw, Sea (Rps * Hm0) Tp (Rmax gammas 1) Ns 4).
(* 894-906 and 1051-1054: wnc is stored but not passed on, so Jonswap uses its default 6 *)
Definition torsethaugen (gammaln : R -> R) (quad : (R -> R) -> R -> R -> R) (Hm0 Tp : R) (method : meth) (wnc gravity : R) (chk : bool) : res (jons * jons) :=
  let* _ := if chk then chk_seastate Hm0 Tp else Ok tt in
  let (w, s) := torsethaugen_parts gammaln Hm0 Tp gravity in
  let make p := jonswap gammaln quad (seaH p) (seaT p) (Some (seaG p)) (7 / 100) (9 / 100) None (seaN p) (seaM p) method 6 false in
  let* wind := make w in
  let* swell := make s in
  Ok (wind, swell).
(* 908-911 *)
Definition torsethaugen_call (gammaln : R -> R) (p : jons * jons) (w : R) : R := jons_call gammaln (fst p) w + jons_call gammaln (snd p) w.

(* models.py:1057-1122 McCormick; [fminbound f a b] is scipy's.  None + 1.0 raises TypeError *)
Definition mccormick (fminbound : (R -> R) -> R -> R -> R) (gamma : R -> R) (Hm0 Tp : R) (Tz M : option R) (chk : bool) : res bret :=
  let tz := match Tz with None => 8143 / 10000 * Tp | Some t => t end in
  let* m := match M with
            | Some m => Ok m
            | None => if Rlt_dec 0 Hm0 then Ok (1 / fminbound (fun x => (Rpower (1 + x) x / gamma (1 + x) - Tp / tz) ^ 2) (1 / 100) 5) else Err TypeError
            end in
  bretschneider Hm0 Tp (m + 1) m chk.

(* models.py:1195-1240 the tables of OchiHubble *)
Definition hp : list (R * R) :=
  [(84/100, 54/100); (84/100, 54/100); (84/100, 54/100); (84/100, 54/100); (84/100, 54/100); (95/100, 31/100); (65/100, 76/100); (90/100, 44/100);
   (77/100, 64/100); (73/100, 68/100); (92/100, 39/100)].
Definition wa : list (R * R) :=
  [(7/10, 115/100); (93/100, 15/10); (41/100, 88/100); (74/100, 13/10); (62/100, 103/100); (70/100, 150/100); (61/100, 94/100); (81/100, 160/100);
   (54/100, 61/100); (70/100, 99/100); (70/100, 137/100)].
Definition wb : list (R * R) :=
  [(46/1000, 39/1000); (56/1000, 46/1000); (16/1000, 26/1000); (52/1000, 39/1000); (39/1000, 30/1000); (46/1000, 46/1000); (39/1000, 36/1000);
   (52/1000, 33/1000); (39/1000, 0); (46/1000, 39/1000); (46/1000, 39/1000)].
Definition Lpar : list (R * R * R) :=
  [(3, 154/100, -62/1000); (3, 277/100, -112/1000); (255/100, 182/100, -89/1000); (265/100, 390/100, -85/1000); (260/100, 53/100, -69/1000);
   (135/100, 248/100, -102/1000); (495/100, 248/100, -102/1000); (180/100, 295/100, -105/1000); (450/100, 195/100, -82/1000);
   (640/100, 178/100, -69/1000); (70/100, 178/100, -69/1000)].
(* x[i] for an integer: negative indices count from the end *)
Definition pick {A} (l : list A) (i : Z) : res A :=
  let n := Z.of_nat (List.length l) in
  let i := if (i <? 0)%Z then (i + n)%Z else i in
  if (i <? 0)%Z then Err IndexError else match nth_error l (Z.to_nat i) with Some a => Ok a | None => Err IndexError end.
(* 1181-1190, 1241-1255: wind and swell; the two Bretschneider spectra are made with chk_seastate=True *)
Definition ochihubble (Hm0 : R) (par : Z) (chk : bool) : res (bret * bret) :=
  let* _ := if chk then let* _ := chk_seastate Hm0 1 in (if ((par <? 0) || (10 <? par))%Z%bool then Err ValueError else Ok tt) else Ok tt in
  let* l := pick Lpar par in let* h := pick hp par in let* b := pick wb par in let* a := pick wa par in
  let '(l0, l1, l2) := l in
  let L1 := l1 * exp (l2 * Hm0) in
  let* swell := bretschneider (fst h * Hm0) (2 * PI * exp (fst b * Hm0) / fst a) (4 * l0 + 1) 4 true in
  let* wind := bretschneider (snd h * Hm0) (2 * PI * exp (snd b * Hm0) / snd a) (4 * L1 + 1) 4 true in
  Ok (wind, swell).
Definition ochihubble_call (gammaln : R -> R) (p : bret * bret) (w : R) : R := bret_call gammaln (fst p) w + bret_call gammaln (snd p) w.

(* models.py:1258-1324 Wallop; g = 9.81 is the default of w2k.  Hm0 > 0 when N is not given *)
Definition wallop (Hm0 Tp : R) (N : option R) (chk : bool) : res bret :=
  let n := match N with
           | Some n => n
           | None => let wp := 2 * PI / Tp in
                     let kp := deep_k (981 / 100) wp in
                     let Lp := 2 * PI / kp in
                     Rabs ((ln (2 * PI ^ 2) + 2 * ln (Hm0 / 4) - 2 * ln Lp) / ln 2)
           end in
  bretschneider Hm0 Tp n 4 chk.
