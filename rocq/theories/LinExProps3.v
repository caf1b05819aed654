(** Properties C105 and C106: what run_high_dim_linear returns. *)
Set Warnings "-notation-overridden,-ambiguous-paths".
From mathcomp Require Import all_ssreflect all_algebra.
From Coq Require Import String.
From Verif Require Import Py Nd Spec LinAlg Dmx DmxProofs LgpModel LgpTheory LgpProofs
  FunctionalProofs LinProps LinProps2 LinProps3 WmeModel WmeProps WmeProps2 UtilModel2 UtilProps3
  LinExModel LinExProps LinExProps2.
Set Implicit Arguments. Unset Strict Implicit. Unset Printing Implicit Defensive.
Import Order.Theory GRing.Theory Num.Theory.
Local Open Scope ring_scope.

Section Loops.
Variable R : rcfType.

Lemma solve_all_ok m n (p : lgp R) (A : 'M[R]_(m, n)) b y mu C al (S : 'M[R]_m) :
  inputs p A b y mu C al -> lcovo p = Dmx S -> posdef C -> posdef S -> 0 < al ->
  (solve p "all" None).2 = Ok (VTup [:: Dmx (mudx A b y mu C);
     Dmx (mapx A b y mu (al *: C) S); Dmx (lsx A b y)]).
Proof.
move=> ip eS pC pS a0; have pC' := posdefZ a0 pC.
have pr := prelude ip; have eS' := truncate_none_co ip eS.
have [eA _ _] := truncate_none ip.
have eac : ac p = Dmx (al *: C) by case: ip => _ _ _ [_ ec ea]; rewrite /ac ec ea.
have em : lmean p = Dmx mu by case: ip => _ _ _ [].
rewrite solve_all_unf {1}/pre pr eac em (mud_stepE _ _ _ _ eA) mud_alpha ?gt_eqF //.
rewrite (mud_alt_stepE _ _ _ _ _ eA eS' (posdef_unit pS)).
rewrite (map_stepE _ _ _ eA eS' (posdef_unit pS) (posdef_unit pC')
  (posdef_unit (precis_posdef A pC' pS))) /=.
by rewrite /ls_step eA dmulE.
Qed.

(** The relative error the example reports. *)
Definition relerr n (lam x : 'cV[R]_n) : R := Num.sqrt (sqnorm (x - lam)) / Num.sqrt (sqnorm lam).

Lemma dnormE n (u : 'cV[R]_n) : dnorm (Dmx u) = Num.sqrt (sqnorm u).
Proof.
rewrite /dnorm /= /sqnorm /dotv; congr Num.sqrt; apply: eq_bigr => i _.
by rewrite big_ord1 expr2.
Qed.

Lemma rel_errsE n (lam : 'cV[R]_n) (xs : seq 'cV[R]_n) :
  rel_errs (Dmx lam) [seq Dmx x | x <- xs] = Ok [seq relerr lam x | x <- xs].
Proof.
rewrite /rel_errs; elim: xs => [//|x xs ih] /=.
by rewrite dsubE /= ih /= !dnormE.
Qed.

Variables (m n : nat) (A : 'M[R]_(m, n)) (b : 'cV[R]_m) (lam mu : 'cV[R]_n) (C : 'M[R]_n).
Hypothesis pC : posdef C.
Variable rs : seq 'M[R]_(m, n).

(** The three relative errors for one operator whose data come from [lam]. *)
Definition errs3 m' (B : 'M[R]_(m', n)) (c : 'cV[R]_m') (al : R) : seq R :=
  [:: relerr lam (mudx B c (B *m lam + c) mu C);
      relerr lam (mapx B c (B *m lam + c) mu (al *: C) 1%:M);
      relerr lam (lsx B c (B *m lam + c))].

Definition dim_row al d : seq R := errs3 (rowsub (firsts d) A) (rowsub (firsts d) b) al.
Definition rank_row al d : seq R := errs3 (nth 0 rs d.-1) b al.

Let y := A *m lam + b.

Lemma solve_all_cut p al d : inputs p A b y mu C al -> lcovo p = Dmx (1%:M : 'M_m) -> 0 < al ->
  let Ad := rowsub (firsts d) A in let bd : 'cV_(minn d m) := rowsub (firsts d) b in
  (solve p "all" (Some (Posz d))).2 = Ok (VTup [seq Dmx x | x <-
     [:: mudx Ad bd (Ad *m lam + bd) mu C; mapx Ad bd (Ad *m lam + bd) mu (al *: C) 1%:M;
         lsx Ad bd (Ad *m lam + bd)]]).
Proof.
move=> ip io a0 Ad bd; rewrite (solve_cut ip io) //.
have e : rowsub (firsts d) y = Ad *m lam + bd :> 'cV[R]_(minn d m).
  by rewrite /Ad mul_rowsub_mx; apply/matrixP => i j; rewrite !mxE.
have ik := cut_inputs A b mu C 1%:M al y d; rewrite e in ik.
rewrite (solve_all_ok ik _ pC (posdef1 R _) a0) //=.
by congr Dmx; apply/matrixP => i j; rewrite !mxE; congr (_ *+ (nat_of_bool _)).
Qed.

Lemma keep_inputs p al od : inputs p A b y mu C al -> lcovo p = Dmx (1%:M : 'M_m) ->
  inputs (solve p "all" od).1 A b y mu C al /\ lcovo (solve p "all" od).1 = Dmx (1%:M : 'M_m).
Proof.
have [e1 e2 e3 e4 [e5 e6 e7]] := C69_solve_keeps_inputs p "all" od.
by case=> a1 a2 a3 [a4 a5 a6] o; rewrite /inputs e1 e2 e3 e4 e5 e7 e6.
Qed.

Lemma dims_loopE al dims p :
  inputs p A b y mu C al -> lcovo p = Dmx (1%:M : 'M_m) -> 0 < al ->
  all (fun d => (0 < d)%N) dims ->
  let r := dims_loop (Dmx lam) [seq Dmx k | k <- rs] al dims p in
  [/\ inputs r.1 A b y mu C al, lcovo r.1 = Dmx (1%:M : 'M_m) &
   r.2 = if all (fun d => (d <= size rs)%N) dims
         then Ok [seq (dim_row al d, rank_row al d) | d <- dims] else Err IndexError].
Proof.
move=> ip io a0; elim: dims p ip io => [|d ds ih] p ip io; first by move=> _ r; split.
move=> /= /andP [d0 ds0].
have e2 := solve_all_cut d ip io a0; have [ip' io'] := keep_inputs (Some (Posz d)) ip io.
case E: (solve p "all" (Some (Posz d))) e2 ip' io' => [p' r'] /= -> ip' io'.
rewrite [rbind _ _]/=; have -> : Posz d - 1 = Posz d.-1.
  by case: d d0 {E} => // d _; rewrite -addn1 PoszD addrK addn1.
rewrite /py_index size_map; case: ltnP => hd; last first.
  by rewrite [rbind _ _]/=; split=> //=; rewrite -[d]prednK // ltnNge hd.
rewrite [rbind _ _]/= (nth_map 0) //; set Ak := nth 0 rs d.-1.
rewrite dmulE [rbind _ _]/=; have [_ eb _ [em ec ea]] := ip'; rewrite eb em ec daddE [rbind _ _]/=.
have [q [eq iq oq]] := init_default_cov C (Some al) (holds2_nd Ak) (holds1_nd b)
  (holds1_nd (Ak *m lam + b)) (holds1_nd mu).
rewrite eq [rbind _ _]/= (solve_all_ok iq oq pC (posdef1 R _) a0) [rbind _ _]/=.
rewrite (rel_errsE lam [:: _; _; _]) [rbind _ _]/= (rel_errsE lam [:: _; _; _]) [rbind _ _]/=.
have := ih p' ip' io' ds0; case: (dims_loop _ _ _ _ _) => [p2 r2] /= [i2 o2 ->].
split=> //; have -> : (d <= size rs)%N by rewrite -[d]prednK.
by case: (all _ _).
Qed.

Lemma alpha_loopE k als p al0 :
  inputs p A b y mu C al0 -> lcovo p = Dmx (1%:M : 'M_m) -> all (fun a => 0 < a) als ->
  alpha_loop (Dmx lam) [seq Dmx k | k <- rs] k als p =
  if (k <= size rs)%N || (als == [::])
  then Ok ([seq [seq dim_row a d | d <- iota 1 k] | a <- als],
           [seq [seq rank_row a d | d <- iota 1 k] | a <- als]) else Err IndexError.
Proof.
elim: als p al0 => [|a als ih] p al0 ip io; first by rewrite orbT.
rewrite /= orbF => /andP [a0 als0].
have ip1 : inputs (set_alpha p a) A b y mu C a by case: ip => ? ? ? [].
have d0 : all (fun d => (0 < d)%N) (iota 1 k).
  by apply/allP => d; rewrite mem_iota => /andP [].
have := dims_loopE ip1 io a0 d0.
case: (dims_loop _ _ _ _ _) => [p' r] /= [i' o' ->].
have -> : all (fun d => (d <= size rs)%N) (iota 1 k) = (k <= size rs)%N.
  apply/allP/idP => [h|h d]; last first.
    by rewrite mem_iota add1n ltnS => /andP [_ hd]; apply: leq_trans h.
  case: (posnP k) => [->//|k0]; apply: h; rewrite mem_iota k0 add1n ltnS leqnn //.
case: ifP => hk //=; rewrite (ih _ _ i' o' als0) hk /=.
by rewrite -!map_comp; congr (Ok (_ :: _, _ :: _)); apply: eq_map.
Qed.
End Loops.
