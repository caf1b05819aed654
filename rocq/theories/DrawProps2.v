(** Properties C124-C127: what the plots of the linear and the spatio-temporal problems draw. *)
Set Warnings "-notation-overridden,-ambiguous-paths".
From mathcomp Require Import all_ssreflect all_algebra.
From Coq Require Import String.
From mathcomp Require Import zify.
From Verif Require Import Py Nd Spec LinAlg Dmx DmxProofs LgpModel LgpTheory LgpProofs FunctionalProofs LinProps LinProps2 LinProps4 IterModel
  IterProps2 UtilModel UtilModel2 UtilProps2 NdProofs PlotModel PlotProps3 StModel StProps StProps3 DrawModel DrawProps.
Set Implicit Arguments. Unset Strict Implicit. Unset Printing Implicit Defensive.
Import Order.Theory GRing.Theory Num.Theory.
Local Open Scope ring_scope.

Section DrawProps2.
Variable R : rcfType.
Notation nd := (nd R).
Notation dmx := (dmx R).
Notation lgp := (lgp R).
Notation art := (art R).

(** ** C124 *)
(** Where the label of a point goes. *)
Definition note_at (label : option string) (loc : option (R * R)) (x y : R) : seq art :=
  if label is Some t then
    if loc is Some q then [:: Note t q.1 q.2] else [:: Note t (x - 2%:R / 100%:R) (y + 2%:R / 100%:R)]
  else [::].

Lemma dflat_col n (x : 'cV[R]_n) : dflat (Dmx x) = [seq x i 0 | i <- enum 'I_n].
Proof.
rewrite /dflat /= -val_enum_ord; elim: (enum 'I_n) => [//|i s ih] /=.
by rewrite -ih (dgetE x i 0).
Qed.
Lemma get_col n (x : 'cV[R]_n.+2) : get (dflat (Dmx x)) 0 = Ok (x 0 0) /\ get (dflat (Dmx x)) 1 = Ok (x 1 0).
Proof.
rewrite dflat_col /get size_map size_enum_ord; cbn [leq]; split; congr Ok.
  by rewrite (nth_map 0) ?size_enum_ord // [nth _ _ _](_ : _ = 0) //; apply/val_inj; rewrite /= nth_enum_ord.
by rewrite (nth_map 0) ?size_enum_ord // [nth _ _ _](_ : _ = 1) //; apply/val_inj; rewrite /= nth_enum_ord.
Qed.
Lemma drow_col n (x : 'cV[R]_n.+2) : drow (Dmx x) 0 = Ok [:: x 0 0] /\ drow (Dmx x) 1 = Ok [:: x 1 0].
Proof. by rewrite /drow /= (dgetE x 0 0) (dgetE x 1 0). Qed.

Lemma draw_solE n (mu x : 'cV[R]_n.+2) ini line label loc :
  draw_sol (Dmx mu) (Dmx x) ini line label loc =
  Ok (Points [:: x 0 0] [:: x 1 0] None
      :: (if line && ~~ ini then [:: Curve [:: mu 0 0; x 0 0] [:: mu 1 0; x 1 0]] else [::])
      ++ note_at label loc (x 0 0) (x 1 0)).
Proof.
have [r0 r1] := drow_col x; have [g0 g1] := get_col x; have [m0 m1] := get_col mu.
rewrite /draw_sol r0 r1 g0 g1 m0 m1; cbn [rbind head].
by case: (line && ~~ ini); cbn [rbind]; case: label => // t; case: loc.
Qed.

Theorem C124_solution n (p : lgp) (mu x : 'cV[R]_n.+2) point line label loc :
  lmean p = Dmx mu -> point <> "initial"%string -> answer p point x ->
  plot_sol p point line label loc = ((solve p point None).1,
    Ok (Points [:: x 0 0] [:: x 1 0] None
        :: (if line then [:: Curve [:: mu 0 0; x 0 0] [:: mu 1 0; x 1 0]] else [::])
        ++ note_at label loc (x 0 0) (x 1 0))).
Proof.
move=> em /String.eqb_neq np; rewrite /answer /plot_sol np; case: (solve p point None) => p' r /= ->.
by cbn [rbind]; rewrite em draw_solE andbT.
Qed.

Theorem C124_initial n (p : lgp) (mu : 'cV[R]_n.+2) line label loc : lmean p = Dmx mu ->
  plot_sol p "initial" line label loc =
    (p, Ok (Points [:: mu 0 0] [:: mu 1 0] None :: note_at label loc (mu 0 0) (mu 1 0))).
Proof. by move=> em; rewrite /plot_sol /= em draw_solE andbF. Qed.

(** With one parameter, and where solve raises, nothing is drawn. *)
Theorem C124_errors n (p : lgp) (mu x : 'cV[R]_n) point line label loc e : (n < 2)%N ->
  [/\ lmean p = Dmx mu -> plot_sol p "initial" line label loc = (p, Err IndexError),
      point <> "initial"%string -> answer p point x ->
      plot_sol p point line label loc = ((solve p point None).1, Err IndexError) &
      point <> "initial"%string -> (solve p point None).2 = Err e ->
      plot_sol p point line label loc = ((solve p point None).1, Err e)].
Proof.
move=> n2; have dr_ (z : 'cV[R]_n) mean i : draw_sol mean (Dmx z) i line label loc = Err IndexError.
  have n1 : (1 < n)%N = false by apply/negbTE; rewrite -leqNgt -ltnS.
  by rewrite /draw_sol /drow; cbn [dr]; rewrite n1; case: (0 < n)%N.
split.
- by move=> em; rewrite /plot_sol /= em dr_.
- move=> /String.eqb_neq np; rewrite /answer /plot_sol np; case: (solve p point None) => p' r /= ->.
  by cbn [rbind]; rewrite dr_.
- move=> /String.eqb_neq np; rewrite /plot_sol np; by case: (solve p point None) => p' r /= ->.
Qed.

(** ** C125 *)
Variable ns : seq R -> res (seq (seq R)).
Notation contours := (lgp_plot_contours ns).

(** With the default plot_opts the method never returns. *)
Theorem C125_default_never_returns p ref subset w ann loc fmt :
  is_ok (contours p ref subset w default_opts ann loc fmt).2 = false.
Proof.
rewrite /lgp_plot_contours.
case: (match ref with Some _ => _ | None => _ end) => p' [v|e] //=.
case E: (pick_rows _ subset) => [A'|e] //; cbn [rbind].
case: (rmapM ns A') => [vs|e] //; cbn [rbind].
case: A' E => [//|a A'] E; set labels := match subset with Some _ => _ | None => _ end.
have l0 : labels <> [::].
  rewrite /labels; case: subset E {labels} => [[|l0 l]|] //.
  rewrite /pick_rows => -[eA] e0.
  by have := congr1 size eA; have := congr1 size e0; rewrite !size_map !size_iota => ->.
case: labels l0 => [//|l0 l] _ /=.
rewrite /contour_step /=; case: ifP => //= _; by case: (contour_line _ _ _).
Qed.

(** The rows of A. *)
Definition arows m n (A : 'M[R]_(m, n)) : seq (seq R) := [seq [seq A i j | j <- enum 'I_n] | i <- enum 'I_m].

(** With options that Line2D knows it draws the lines of the function plot_contours (C97) through
    the reference point, by default the least-squares solution. *)
Theorem C125_lines m n (p : lgp) (A : 'M[R]_(m, n)) (x : 'cV[R]_n) subset w opts loc fmt :
  lA p = Dmx A -> all is_key opts ->
  [/\ forall ref, contours p (Some ref) subset w opts false loc fmt =
        (p, rmap (map (fun l => Curve l.1.1 l.1.2)) (plot_contours ns (arows A) ref subset w)),
      forall ref, contours p (Some ref) subset w opts true loc fmt =
        (p, rmap (fun ls => flatten [seq [:: Curve l.1.1 l.1.2;
               if loc is Some q then Note (fmt l.2) q.1 q.2 else Note (fmt l.2) (nth 0 l.1.1 0) (nth 0 l.1.2 0)] | l <- ls])
              (plot_contours ns (arows A) ref subset w)) &
      forall ann, answer p "ls" x ->
        contours p None subset w opts ann loc fmt =
        ((solve p "ls" None).1, (contours p (Some [seq x i 0 | i <- enum 'I_n]) subset w opts ann loc fmt).2)].
Proof.
move=> eA ok.
have eR : [seq [seq dget (lA p) i j | j <- iota 0 (dc (lA p))] | i <- iota 0 (dr (lA p))] = arows A.
  rewrite eA; cbn [dr dc]; rewrite /arows -(val_enum_ord m) -map_comp; apply: eq_map => i /=.
  by rewrite -(val_enum_ord n) -map_comp; apply: eq_map => j /=; rewrite dgetE.
have loop ref ann AA L : rmapM (contour_step ref w opts ann loc fmt AA) L =
  rmap (map (fun l => Curve l.1.1 l.1.2 ::
    (if ann then [:: if loc is Some q then Note (fmt l.2) q.1 q.2 else Note (fmt l.2) (nth 0 l.1.1 0) (nth 0 l.1.2 0)]
     else [::])))
    (rmapM (fun q : nat * int => v <- (if (q.1 < size AA)%N then Ok (nth [::] AA q.1) else Err IndexError) ;;
       l <- contour_line ref v w ;; Ok (l, q.2 + 1)) L).
  elim: L => [//|q L ih] /=; rewrite ih /contour_step ok.
  case: (if _ then _ else _) => [v|] //=; case: (contour_line _ _ _) => [l|] //=.
  by case: (rmapM _ _) => [s|] //=; case: ann {ih} => //; case: loc.
have gen ref ann : contours p (Some ref) subset w opts ann loc fmt =
   (p, rmap (fun ls => flatten [seq Curve l.1.1 l.1.2 ::
    (if ann then [:: if loc is Some q then Note (fmt l.2) q.1 q.2 else Note (fmt l.2) (nth 0 l.1.1 0) (nth 0 l.1.2 0)]
     else [::]) | l <- ls]) (plot_contours ns (arows A) ref subset w)).
  rewrite /lgp_plot_contours eR /plot_contours; cbn [rbind]; congr pair.
  case: (pick_rows _ _) => [A'|] //; cbn [rbind]; case: (rmapM ns A') => [vs|] //; cbn [rbind].
  by case: A' => [//|a A']; rewrite loop; case: (rmapM _ _).
split.
- by move=> ref; rewrite gen; congr pair; case: (plot_contours _ _ _ _ _) => [ls|] //=; congr Ok; elim: ls => //= l ls ->.
- by move=> ref; rewrite gen.
- move=> ann; rewrite /answer => hx; rewrite gen /lgp_plot_contours.
  case E: (solve p "ls" None) hx => [p' r] /= ->; cbn [rbind]; rewrite dflat_col.
  by have := gen [seq x i 0 | i <- enum 'I_n] ann; rewrite /lgp_plot_contours; cbn [rbind] => -[->].
Qed.

(** plot_chain never returns; when the points have two entries or more it raises TypeError. *)
Theorem C125_chain_never (p : ilp R) ref : is_ok (plot_chain p ref) = false.
Proof. by rewrite /plot_chain; case: (rmapM _ _). Qed.
Theorem C125_chain_type_error n (p : ilp R) (ref : 'cV[R]_n.+2) (cs : seq (seq 'cV[R]_n.+2)) :
  ichains p = [seq [seq Dmx u | u <- c] | c <- cs] -> [::] \notin cs -> plot_chain p (Dmx ref) = Err TypeError.
Proof.
move=> e h; rewrite /plot_chain e; suff [l ->] : exists l, rmapM (draw_chain (Dmx ref)) [seq [seq Dmx u | u <- c] | c <- cs] = Ok l by [].
have dp (u : 'cV[R]_n.+2) : exists l, draw_point (Dmx u) = Ok l.
  by have [g0 g1] := get_col u; rewrite /draw_point g0 g1; eexists.
have ds (c : seq 'cV[R]_n.+2) (u : 'cV[R]_n.+2) : exists l, draw_steps (Dmx u) [seq Dmx u | u <- c] = Ok l.
  elim: c u => [|v c ih] u; first by eexists.
  have [l el] := ih v; have [g0 g1] := get_col u; have [k0 k1] := get_col v.
  by cbn [draw_steps map]; rewrite g0 g1 k0 k1 el; eexists.
elim: cs h {e} => [|c cs ih]; first by exists [::].
rewrite inE negb_or => /andP [c0 /ih [l el]]; cbn [rmapM map].
case: c c0 => [//|u c] _; have [l1 e1] := dp u; have [l3 e3] := dp ref.
have [l2 e2] := ds (u :: c) u; have [l4 e4] := dp (last u (u :: c)).
have lm : last (Dmx u) [seq Dmx u | u <- u :: c] = Dmx (last u (u :: c)) by rewrite (last_map Dmx).
cbn [map] in e2, lm, e4 |- *; rewrite {1}/draw_chain e1 e2 lm e4 e3; cbn [rbind].
by rewrite el; eexists.
Qed.
End DrawProps2.
