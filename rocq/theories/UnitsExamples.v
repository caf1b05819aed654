(** A concrete case for C161: distributions that are uniform on boxes, and the box from the first to the
    last sample for the kernel density estimate. *)
Set Warnings "-notation-overridden,-ambiguous-paths".
From mathcomp Require Import all_ssreflect all_algebra.
From mathcomp.algebra_tactics Require Import ring.
From Verif Require Import Py Nd Xnum XnumProofs UtilModel DensityModel NdProofs DensityProps2 DensityProps3 OrderProps UnitsProps.
Set Implicit Arguments. Unset Strict Implicit. Unset Printing Implicit Defensive.
Import Order.Theory GRing.Theory Num.Theory.
Local Open Scope ring_scope.

Section Boxes.
Variable R : rcfType.
Notation xnum := (xnum R).
Notation nd := (nd R).
(** Lower corner and lengths. *)
Definition box := seq (R * R).
Definition side (d : box) (j : nat) : R * R := nth (0, 1) d j.
Definition height (s : R * R) (x : R) : R := if (s.1 <= x) && (x <= s.1 + s.2) then s.2^-1 else 0.
Definition bx_pdf (d : box) (_ : unit) (A : nd) : res (pdfval xnum) :=
  Ok (P2 [seq [seq Fin (height (side d j) (nth 0 r j)) | j <- iota 0 (dim A 1)] | r <- rows A]).
Definition bx_uniform (mn rg : seq R) : box := zip mn rg.
Definition bx_kde (A : nd) (_ : unit) (_ : seq xnum) : res box :=
  if dim A 0 == 0%N then Err ValueError else
  Ok [seq (nth 0 (head [::] (rows A)) j, nth 0 (last [::] (rows A)) j - nth 0 (head [::] (rows A)) j) | j <- iota 0 (dim A 1)].
Definition bx_kde_pdf (d : box) (A : nd) : res (seq xnum) :=
  Ok [seq xprod [seq Fin (height (side d j) (nth 0 r j)) | j <- iota 0 (dim A 1)] | r <- rows A].
Definition bx_in (u : units R) (d : box) : box :=
  [seq (to_unit (nth (0, 0) u j) (side d j).1, (nth (0, 0) u j).1 * (side d j).2) | j <- iota 0 (size u)].
Definition jac (u : units R) : R := \prod_(j <- iota 0 (size u)) (nth (0, 0) u j).1^-1.

Lemma xprod_fin (f : nat -> R) l : xprod [seq Fin (f j) | j <- l] = Fin (\prod_(j <- l) f j).
Proof. by elim: l => [|j l /= ->]; rewrite /= ?big_nil // big_cons. Qed.
Lemma jac_gt0 u : positive u -> 0 < jac u.
Proof.
move=> h; rewrite /jac big_seq; apply: prodr_gt0 => j; rewrite mem_iota add0n => /= hj.
by rewrite invr_gt0; apply: (allP h); exact: mem_nth.
Qed.
Lemma height_unit (t : R * R) (s : R * R) x : 0 < t.1 -> height (to_unit t s.1, t.1 * s.2) (to_unit t x) = t.1^-1 * height s x.
Proof.
move=> t0; rewrite /height /to_unit [fst _]/= [snd _]/= ler_add2r ler_pmul2l //.
have -> : t.1 * s.1 + t.2 + t.1 * s.2 = t.1 * (s.1 + s.2) + t.2 by ring.
by rewrite ler_add2r ler_pmul2l //; case: ifP => _; rewrite ?mulr0 // invfM.
Qed.
Lemma side_in u d j : (j < size u)%N -> side (bx_in u d) j = (to_unit (nth (0, 0) u j) (side d j).1, (nth (0, 0) u j).1 * (side d j).2).
Proof. by move=> hj; rewrite {1}/side (nth_map 0%N) ?size_iota // nth_iota. Qed.
Lemma row_density u d (r : seq R) : positive u -> size r = size u ->
  xprod [seq Fin (height (side (bx_in u d) j) (nth 0 (point_in u r) j)) | j <- iota 0 (size u)] =
  xmul (Fin (jac u)) (xprod [seq Fin (height (side d j) (nth 0 r j)) | j <- iota 0 (size u)]).
Proof.
move=> h e; rewrite !xprod_fin /= /jac -big_split /=; congr Fin.
rewrite big_seq [RHS]big_seq; apply: eq_bigr => j; rewrite mem_iota add0n => /= hj.
rewrite side_in // nth_point ?e // height_unit //.
by apply: (allP h); exact: mem_nth.
Qed.

Lemma bx_change n (ux uy : units R) : positive ux -> positive uy ->
  change_of_units bx_pdf tt bx_uniform bx_kde bx_kde_pdf n (size ux) (size uy) ux uy (jac ux) (jac uy) (bx_in ux) (bx_in uy).
Proof.
move=> hx hy.
have den u d (A : nd) : positive u -> n_rows n A -> dim A 1 = size u ->
    [seq xprod [seq Fin (height (side (bx_in u d) j) (nth 0 r j)) | j <- iota 0 (size u)] | r <- rows (points_in u A)] =
    times (jac u) [seq xprod [seq Fin (height (side d j) (nth 0 r j)) | j <- iota 0 (size u)] | r <- rows A].
  move=> hu hA e; rewrite (rows_points hA e) // /times -!map_comp; apply/eq_in_map => r hr /=.
  have [wf n2 _] := hA; have := allP (all_size_rows wf n2) r hr; rewrite e => /eqP er.
  exact: row_density.
split=> [|d A hA e|||].
- by split=> //; exact: jac_gt0.
- rewrite /densities_times /bx_pdf; have -> : dim (points_in ux A) 1 = dim A 1 by []; rewrite e -!map_comp.
  by have := den ux d A hx hA e; rewrite /times -!map_comp.
- split=> [d kw A hA e|d kw A v hA [<-]].
    rewrite /densities_times /bx_pdf; have -> : dim (points_in uy A) 1 = dim A 1 by []; rewrite e -!map_comp.
    by have := den uy d A hy hA e; rewrite /times -!map_comp.
  have [_ _ <-] := hA; rewrite /= size_map size_rows; split=> //.
  by rewrite all_map; apply/allP => r _; rewrite /= size_map size_iota.
- move=> mn rg e1 e2; apply: (@eq_from_nth _ (0, 0)).
    by rewrite size_map size_iota !size_zip !size_map !size_zip e1 e2 !minnn.
  move=> j; rewrite size_map size_iota => hj.
  have hz : (j < size (zip mn rg))%N by rewrite size_zip e1 e2 minnn.
  rewrite (nth_map 0%N) ?size_iota // nth_iota // add0n /side (set_nth_default (0, 0)) //.
  rewrite !nth_zip ?size_map ?size_zip ?e1 ?e2 ?minnn // nth_point ?e1 //=.
  by rewrite (nth_map ((0, 0), 0)) ?size_zip ?e2 ?minnn // nth_zip ?e2.
- split=> [A bw w hA e|k A hA e]; last first.
    rewrite /bx_kde_pdf; have -> : dim (points_in uy A) 1 = dim A 1 by []; rewrite e /=; congr Ok.
    exact: den.
  rewrite /bx_kde; have -> : dim (points_in uy A) 1 = dim A 1 by []; have -> : dim (points_in uy A) 0 = dim A 0 by [].
  case: ifP => // /negbT n0; rewrite [rmap _ _]/=; congr Ok.
  have [wf n2 _] := hA; have := all_size_rows wf n2; rewrite (rows_points hA e) //.
  have : size (rows A) != 0%N by rewrite size_rows.
  case: (rows A) => [//|r0 rs] _ ar.
  rewrite [map (point_in uy) _]/= [head _ _]/= [last _ _]/= last_map [head _ _]/= [last _ (r0 :: rs)]/=.
  have s0 : size r0 = size uy by move: ar; rewrite /= e => /andP[/eqP].
  have sl : size (last r0 rs) = size uy by have := allP ar (last r0 rs) (mem_last _ _); rewrite e => /eqP.
  rewrite e /bx_in; apply/eq_in_map => j; rewrite mem_iota add0n => /= hj.
  rewrite /side (nth_map 0%N) ?size_iota // nth_iota // add0n !nth_point ?s0 ?sl //=.
  by congr (_, _); rewrite /to_unit; ring.
Qed.

(** Two samples of one parameter and one observable; centimetres instead of metres for the parameter,
    another zero and unit for the observable. *)
Definition ue_X : nd := nd2 1 [:: [:: 1]; [:: 3%:R]].
Definition ue_y : nd := nd2 1 [:: [:: 0]; [:: 2%:R]].
Definition ue_ux : units R := [:: (100%:R, 5%:R)].
Definition ue_uy : units R := [:: (2%:R, -1)].
Definition ue_box : box := [:: (0, 1)].
Variable trunc : R -> R.
Notation cv := (converted ue_ux ue_uy (jac ue_ux) (jac ue_uy) (bx_in ue_ux) (bx_in ue_uy)).
Notation ue_init X y := (density_init box trunc X y false None false None false 0).
Notation ue_obs := (set_observed bx_pdf tt [:: (0, 1)]).
Notation ue_mud := (mud_point bx_pdf tt tt bx_uniform [:: (0, 1)] bx_kde bx_kde_pdf).

Lemma ue_positive : positive ue_ux /\ positive ue_uy.
Proof. by rewrite /positive /= !andbT !ltr0n. Qed.
Lemma ue_rows (a b : R) : n_rows 2 (nd2 1 [:: [:: a]; [:: b]]). Proof. by []. Qed.

Lemma C161_example : exists s s1 x,
  [/\ ue_init ue_X ue_y = Ok s /\ ue_init (points_in ue_ux ue_X) (points_in ue_uy ue_y) = Ok (cv s),
      ue_obs s (Some ue_box) = (s1, Ok tt) /\ ue_obs (cv s) (Some (bx_in ue_uy ue_box)) = (cv s1, Ok tt),
      (ue_mud s1).2 = Ok x, (ue_mud (cv s1)).2 = Ok (point_in ue_ux x) & point_in ue_ux x <> x].
Proof.
have [hx hy] := ue_positive; have ch := bx_change 2 hx hy.
have [e h] := @C161_constructor R box unit unit bx_pdf tt bx_uniform [:: (0, 1)] bx_kde bx_kde_pdf trunc 2 1 1 ue_ux ue_uy
  (jac ue_ux) (jac ue_uy) (bx_in ue_ux) (bx_in ue_uy) ch ue_X ue_y None None false 0 (ue_rows _ _) erefl (ue_rows _ _) erefl I.
have [s es] : exists s, ue_init ue_X ue_y = Ok s by eexists; reflexivity.
have [_ /(_ ue_box) hd] := h s es; have [s1 e1] : exists s1, ue_obs s (Some ue_box) = (s1, Ok tt) by move: es => [<-]; eexists; reflexivity.
have [e2 g1] := hd _ e1.
have [x [ex hx1]] : exists x, (ue_mud s1).2 = Ok x /\ (x = [:: 1] \/ x = [:: 3%:R]).
  have [s2 [u0 [u1 [f1 f2 f3]]]] : exists s2 u0 u1,
      [/\ ensure_up bx_pdf tt tt bx_uniform [:: (0, 1)] bx_kde bx_kde_pdf s1 = (s2, Ok tt), d_up s2 = Some [:: u0; u1] & dX s2 = ue_X].
    by move: es => [es]; move: e1; rewrite -es => -[<-]; do 3!eexists; split; reflexivity.
  rewrite /DensityModel.mud_point f1 /= f2 f3 /=.
  case: (isnan u0) => /=; first by eexists; split; [reflexivity | left].
  case: (isnan u1) => /=; first by eexists; split; [reflexivity | right].
  by case: (xlt u0 u1) => /=; eexists; (split; first reflexivity); [right | left].
exists s, s1, x; split; [by split; [| rewrite es in e] | by split | exact: ex | |].
  have [E _] := C161_estimate tt ch g1; have e3 := congr1 snd E.
  by rewrite ex in e3.
case: hx1 => ->; rewrite /point_in /to_unit /= ?mulr1 -?natrM -natrD => -[] /eqP; last by rewrite eqr_nat.
by rewrite -[X in _ == X]/(1%:R) eqr_nat.
Qed.
End Boxes.
