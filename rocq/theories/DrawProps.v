(** Properties C123-C127: what the plotting methods of base.py draw. *)
Set Warnings "-notation-overridden,-ambiguous-paths".
From mathcomp Require Import all_ssreflect all_algebra.
From Coq Require Import String.
From mathcomp Require Import zify.
From Verif Require Import Py Nd Spec LinAlg Dmx DmxProofs LgpModel LgpTheory LgpProofs LinProps LinProps2 LinProps4 IterModel IterProps2 UtilModel UtilModel2
  NdProofs PlotModel StModel StProps StProps3 DrawModel.
Set Implicit Arguments. Unset Strict Implicit. Unset Printing Implicit Defensive.
Import Order.Theory GRing.Theory Num.Theory.
Local Open Scope ring_scope.

Section DrawProps.
Variable R : rcfType.
Notation nd := (nd R).
Notation dmx := (dmx R).
Notation lgp := (lgp R).
Notation art := (art R).
Variable tri : seq R -> seq R -> seq R -> res unit.

(** ** C123 *)
(** The sequence u lists column j of a. *)
Definition is_column (u : seq R) (a : nd) (j : nat) : Prop :=
  size u = dim a 0 /\ forall i, (i < dim a 0)%N -> nth 0 u i = ent a i j.
(** Position k is what the Python index i means among n entries. *)
Definition meant (n : nat) (i : int) (k : nat) : Prop :=
  (k < n)%N /\ (Posz k = i \/ Posz k = i + Posz n).

Lemma ncol_column a j : is_column (ncol a j) a j.
Proof.
split; first by rewrite size_map size_rows.
by move=> i hi; rewrite (nth_map [::]) ?size_rows.
Qed.
Lemma py_indexP n i : if (- Posz n <= i) && (i < Posz n) then exists2 k, py_index n i = Ok k & meant n i k
  else py_index n i = Err IndexError.
Proof.
rewrite /py_index /meant; case: i => k.
  case: (ltnP k n) => h.
    by rewrite ifT; [exists k => //; split=> //; left | lia].
  by rewrite ifF //; lia.
case: (ltnP k n) => h; last by rewrite ifF //; lia.
rewrite ifT; last by lia.
by exists (n - k.+1)%N => //; split; [lia | right; lia].
Qed.

Notation params2d := (plot_params_2d tri).
(** The points drawn are the first two parameters, whatever x_1 and x_2 are; these only appear in
    the labels. *)
Theorem C123_params X y x1 x2 yi ct cb a : params2d X y x1 x2 yi ct cb = Ok a ->
  exists u v c k, [/\ is_column u X 0, is_column v X 1, meant (dim y 1) yi k, is_column c y k &
    a = Points u v (Some c) :: (if ct then [:: TriContour u v c; TitleObservable R (yi + 1)] else [::])
        ++ (if cb then [:: Colorbar R] else [::]) ++ [:: XLabelParam R (x1 + 1); YLabelParam R (x2 + 1)]].
Proof.
rewrite /plot_params_2d; case: (1 < dim X 1)%N; cbn [guard rbind]; last by [].
case: (~~ _); cbn [guard rbind]; last by [].
case: (~~ _); cbn [guard rbind]; last by [].
have := py_indexP (dim y 1) yi; case: ifP => [_ [k -> hk]|_ -> //]; cbn [rbind].
case: (_ == _); cbn [guard rbind]; last by [].
case: (if ct then _ else _) => // -[]; cbn [rbind] => -[<-].
exists (ncol X 0), (ncol X 1), (ncol y k), k.
by split=> //; exact: ncol_column.
Qed.

Theorem C123_errors X y x1 x2 yi ct cb :
  let r := params2d X y x1 x2 yi ct cb in
  if (dim X 1 < 2)%N then r = Err AttributeError
  else if [|| Posz (dim X 1) <= x1, Posz (dim X 1) <= x2 | Posz (dim y 1) <= yi] then r = Err ValueError
  else if yi < - Posz (dim y 1) then r = Err IndexError
  else if dim X 0 != dim y 0 then r = Err ValueError
  else ~~ ct \/ (forall u v c, is_ok (tri u v c)) -> is_ok r.
Proof.
cbv zeta; rewrite /plot_params_2d ltnNge; case: (1 < dim X 1)%N; cbn [guard rbind negb]; last by [].
case h1: (_ <= x1); cbn [orb negb guard rbind]; first by [].
case h2: (_ <= x2); cbn [orb negb guard rbind]; first by [].
case h3: (_ <= yi); cbn [orb negb guard rbind]; first by [].
have := py_indexP (dim y 1) yi; case: (ltP yi (- Posz (dim y 1))) => h4.
  by move=> /= ->.
rewrite ltNge h3 /=.
move=> [k -> hk]; cbn [rbind]; case: (_ == _); cbn [guard rbind negb]; last by [].
case: ct => //= -[//|/(_ (ncol X 0) (ncol X 1) (ncol y k))].
by case: (tri _ _ _) => // -[].
Qed.

(** Negative x_1, x_2 are accepted whatever their size; two plots that differ in x_1 and x_2 only
    differ in the labels. *)
Theorem C123_indices_ignored X y x1 x2 x1' x2' yi ct cb a : params2d X y x1 x2 yi ct cb = Ok a ->
  x1' < Posz (dim X 1) -> x2' < Posz (dim X 1) ->
  exists b, a = b ++ [:: XLabelParam R (x1 + 1); YLabelParam R (x2 + 1)] /\
    params2d X y x1' x2' yi ct cb = Ok (b ++ [:: XLabelParam R (x1' + 1); YLabelParam R (x2' + 1)]).
Proof.
move=> + h1 h2; rewrite /plot_params_2d.
case: (1 < dim X 1)%N; cbn [guard rbind]; last by [].
rewrite [Posz (dim X 1) <= x1']leNgt h1 [Posz (dim X 1) <= x2']leNgt h2 [~~ (~~ true || ~~ true)]/=.
case: (~~ _); cbn [guard rbind]; last by [].
case: (~~ _); cbn [guard rbind]; last by [].
case: (py_index _ _) => [k|//]; cbn [rbind].
case: (_ == _); cbn [guard rbind]; last by [].
case: (if ct then _ else _) => // -[]; cbn [rbind] => -[<-].
rewrite catA -cat_cons; eexists; split; first reflexivity.
by rewrite catA.
Qed.

Theorem C123_qoi (y : nd) i j :
  if [&& - Posz (dim y 1) <= i, i < Posz (dim y 1), - Posz (dim y 1) <= j & j < Posz (dim y 1)] then
    exists u v k l, [/\ plot_qoi y i j = Ok [:: Points u v None], meant (dim y 1) i k, meant (dim y 1) j l,
      is_column u y k & is_column v y l]
  else plot_qoi y i j = Err IndexError.
Proof.
rewrite /plot_qoi; have := py_indexP (dim y 1) i; have := py_indexP (dim y 1) j.
case: (- _ <= i); case: (i < _); case: (- _ <= j); case: (j < _); cbn [andb];
  try by move=> h1 h2; first [rewrite h2 | case: h2 => k -> _; cbn [rbind]; rewrite h1].
move=> [l -> hl] [k -> hk]; cbn [rbind].
by exists (ncol y k), (ncol y l), k, l; split=> //; exact: ncol_column.
Qed.
(** With one observable the default indices raise IndexError. *)
Corollary C123_qoi_single (y : nd) : dim y 1 = 1%N -> plot_qoi y 0 1 = Err IndexError.
Proof. by move=> e; have := C123_qoi y 0 1; rewrite e. Qed.
End DrawProps.
