(** Properties C01-C24: LinearGaussianProblem, funs.updated_cov, the solver
    wrappers and norm.py.  Specification vocabulary is in Spec.v. *)
Set Warnings "-notation-overridden,-ambiguous-paths".
From mathcomp Require Import all_ssreflect all_algebra.
From Coq Require Import String.
From Verif Require Import Py Nd Spec LinAlg Dmx DmxProofs LgpModel LgpTheory LgpProofs
  FunctionalProofs.
Set Implicit Arguments. Unset Strict Implicit. Unset Printing Implicit Defensive.
Import Order.Theory GRing.Theory Num.Theory.
Local Open Scope ring_scope.

(** [answer p method x]: calling [p.solve(method)] returns the column [x]. *)
Definition answer (R : realFieldType) n (p : lgp R) (method : string) (x : 'cV[R]_n) :=
  (solve p method None).2 = Ok (VArr (Dmx x)).

(** [holds2 a A]: the numpy array [a] is two-dimensional and holds the matrix [A].
    [holds1 a u]: [a], of any shape, holds the entries of [u] in row-major order. *)
Definition holds2 (R : realFieldType) m n (a : nd R) (A : 'M[R]_(m, n)) :=
  shape a = [:: m; n] /\ forall (i : 'I_m) (j : 'I_n), nth 0 (data a) (i * n + j) = A i j.
Definition holds1 (R : realFieldType) m (a : nd R) (u : 'cV[R]_m) :=
  size (data a) = m /\ forall i : 'I_m, nth 0 (data a) i = u i 0.

Section LinProps.
Variable R : realFieldType.

Lemma answer_inj n (p : lgp R) me (x x' : 'cV[R]_n) :
  answer p me x -> answer p me x' -> x = x'.
Proof.
have inj (u v : dmx R) : Ok (VArr u) = Ok (VArr v) -> u = v by case.
by rewrite /answer => -> /inj /Dmx_inj.
Qed.

Section P.
Variables (m n : nat) (p : lgp R) (A : 'M[R]_(m, n)) (b y : 'cV[R]_m).
Variables (mu : 'cV[R]_n) (C : 'M[R]_n) (al : R).
Hypothesis ip : inputs p A b y mu C al.

Lemma mud_answer : 0 < al -> answer p "mud" (mudx A b y mu C).
Proof.
by move=> a0; rewrite /answer (solve_mudE ip) /= mud_alpha // gt_eqF.
Qed.

Theorem C01_mud_reproduces_data : row_free A -> posdef C -> 0 < al ->
  exists2 x, answer p "mud" x & A *m x + b = y.
Proof.
move=> fA pC a0; exists (mudx A b y mu C); [exact: mud_answer | exact: mud_fit].
Qed.

Theorem C02_mud_is_best_fit : posdef C -> 0 < al ->
  exists2 x, answer p "mud" x & best_fit A b y x.
Proof.
move=> pC a0; exists (mudx A b y mu C); [exact: mud_answer | exact: mud_best].
Qed.

Theorem C03_mud_closest_best_fit : posdef C -> 0 < al ->
  exists x, [/\ answer p "mud" x, best_fit A b y x &
    forall x', best_fit A b y x' ->
      mahal C mu x <= mahal C mu x' /\ (mahal C mu x' <= mahal C mu x -> x' = x)].
Proof.
move=> pC a0; exists (mudx A b y mu C); split; first exact: mud_answer.
  exact: mud_best.
by move=> x' bx; apply: mud_closest.
Qed.

Theorem C04_mud_ignores_alpha_and_cov_o (p' : lgp R) al' :
  inputs p' A b y mu C al' -> 0 < al -> 0 < al' ->
  (solve p "mud" None).2 = (solve p' "mud" None).2.
Proof.
move=> ip' a0 a0'; rewrite (solve_mudE ip) (solve_mudE ip') /=.
by rewrite !mud_alpha // gt_eqF.
Qed.

Theorem C05_consistent_mean_is_fixed : A *m mu + b = y ->
  answer p "mud" mu
  /\ forall method v, method = "mud_alt"%string \/ method = "map"%string ->
       (solve p method None).2 = Ok v -> v = VArr (Dmx mu).
Proof.
move=> h; have r0 := resid0 h; split.
  by rewrite /answer (solve_mudE ip) /= /mudx r0 mulmx0 addr0.
move=> me v [] ->; case E: (solve p _ None) => [p' r] /= er; rewrite er in E.
  have [S eS uS] := solve_mud_alt_inv ip E.
  move: E; rewrite (solve_mud_altE ip eS uS) => -[_ <-].
  by rewrite /mudaltx r0 mulmx0 addr0.
have [S [eS uS uC uH]] := solve_map_inv ip E.
move: E; rewrite (solve_mapE ip eS uS uC uH) => -[_ <-].
by rewrite /mapx r0 mulmx0 addr0.
Qed.

Variable S : 'M[R]_m.
Hypothesis eS : lcovo p = Dmx S.

Let eS' : tco (truncate p None) = Dmx S := truncate_none_co ip eS.

(** The agreement holds when cov_o commutes with the orthogonal projector on the
    range of A; in particular for full row rank and for cov_o = s^2 I. *)
Theorem C06_mud_alt_agrees_partial : posdef C -> posdef S -> 0 < al ->
  (row_free A \/ exists c, S = c%:M) \/ A *m pinv A *m S = S *m (A *m pinv A) ->
  exists2 x : 'cV_n, answer p "mud" x & answer p "mud_alt" x.
Proof.
move=> pC pS a0 h; exists (mudx A b y mu C); first exact: mud_answer.
have cS : obs_compatible A S.
  case: h => [[fA|[c ->]]|//]; [exact: compat_full | exact: compat_scalar].
rewrite /answer (solve_mud_altE ip eS' (posdef_unit pS)) /= mud_alt_eq //.
- by rewrite mud_alpha // gt_eqF.
- exact: posdefZ.
- exact: posdef_unit.
Qed.

Lemma map_answer : posdef C -> posdef S -> 0 < al ->
  answer p "map" (mapx A b y mu (al *: C) S).
Proof.
move=> pC pS a0; have pC' := posdefZ a0 pC.
rewrite /answer (solve_mapE ip eS') //; try exact: posdef_unit.
exact/posdef_unit/precis_posdef.
Qed.

Theorem C10_map_minimises_bayes_functional : posdef C -> posdef S -> 0 < al ->
  exists2 x, answer p "map" x &
  forall x', bayes_objective A b y mu (al *: C) S x
             <= bayes_objective A b y mu (al *: C) S x' /\
    (bayes_objective A b y mu (al *: C) S x'
       <= bayes_objective A b y mu (al *: C) S x -> x' = x).
Proof.
move=> pC pS a0; exists (mapx A b y mu (al *: C) S); first exact: map_answer.
by move=> x'; apply: map_min => //; apply: posdefZ.
Qed.

Theorem C11_posterior_covariance_contracts : posdef C -> posdef S -> 0 < al ->
  exists P : 'M[R]_n,
  [/\ l_cov_p (solve p "map" None).1 = Some (Dmx P), posdef P,
      P = al *: C - al *: C *m A^T *m invmx (A *m (al *: C) *m A^T + S) *m A *m (al *: C)
    & psd (al *: C - P)].
Proof.
move=> pC pS a0; have pC' := posdefZ a0 pC; exists (covp A (al *: C) S); split.
- rewrite (solve_mapE ip eS') //; try exact: posdef_unit.
  exact/posdef_unit/precis_posdef.
- exact: covp_posdef.
- by rewrite woodbury // predcovE.
- exact: covp_contracts.
Qed.

Theorem C12_ls_min_norm_best_fit :
  exists x, [/\ answer p "ls" x, best_fit A b y x &
    forall x', best_fit A b y x' ->
      sqnorm x <= sqnorm x' /\ (sqnorm x' <= sqnorm x -> x' = x)].
Proof.
exists (lsx A b y); split; [by rewrite /answer (solve_lsE ip) | exact: ls_best |].
by move=> x'; apply: ls_min_norm.
Qed.

Theorem C13_mud_is_ls_for_standard_prior : mu = 0 -> C = 1%:M -> 0 < al ->
  exists2 x : 'cV_n, answer p "mud" x & answer p "ls" x.
Proof.
move=> m0 C1 a0; exists (lsx A b y); last by rewrite /answer (solve_lsE ip).
by rewrite /answer (solve_mudE ip) m0 C1 scalemx1 mud_ls // gt_eqF.
Qed.

End P.

Theorem C14_invertible_map n (p : lgp R) (A C S : 'M[R]_n) b y mu al :
  inputs p A b y mu C al -> lcovo p = Dmx S ->
  A \in unitmx -> posdef C -> posdef S -> 0 < al ->
  [/\ answer p "mud" (invmx A *m (y - b)), answer p "mud_alt" (invmx A *m (y - b))
    & answer p "ls" (invmx A *m (y - b))].
Proof.
move=> ip eS uA pC pS a0; have fA : row_free A by rewrite row_free_unit.
have e := mud_invertible b y mu uA pC; split.
- by rewrite -e; exact: (mud_answer ip a0).
- have [x h1 h2] := C06_mud_alt_agrees_partial ip eS pC pS a0 (or_introl (or_introl fA)).
  by rewrite -e (answer_inj (mud_answer ip a0) h1).
- by rewrite /answer (solve_lsE ip) /= ls_invertible.
Qed.

(** ** C07-C09: funs.updated_cov and the method of the class *)
Section U.
Variables (m n : nat) (A : 'M[R]_(m, n)) (C : 'M[R]_n) (S : 'M[R]_m).

(** Both entry points, with every way of supplying the covariances. *)
Definition updated_cov_returns (U : 'M[R]_n) :=
  [/\ updated_cov (Dmx A) (Some (Dmx C)) (Some (Dmx S)) = Ok (Dmx U),
      (forall p : lgp R,
         lgp_updated_cov p (Some (Dmx A)) (Some (Dmx C)) (Some (Dmx S)) = Ok (Dmx U))
    & (forall p : lgp R, lA p = Dmx A -> lcovi p = Dmx C -> lcovo p = Dmx S ->
         lgp_updated_cov p None None None = Ok (Dmx U))].

Lemma updated_covE : updated_cov_returns (upcov A C S).
Proof.
rewrite /updated_cov_returns /updated_cov /lgp_updated_cov /= !eqxx /=.
split=> [|p|p -> -> ->] /=; exact: updated_cov_coreE.
Qed.

Theorem C07_updated_cov_pushes_forward : row_free A -> posdef C ->
  exists2 U, updated_cov_returns U & A *m U *m A^T = S.
Proof. by move=> fA pC; exists (upcov A C S); [exact: updated_covE|exact: upcov_push]. Qed.

Theorem C08_updated_cov_is_covariance : posdef C -> psd S ->
  exists2 U, updated_cov_returns U & psd U /\ (posdef S -> posdef U).
Proof.
move=> pC pS; exists (upcov A C S); first exact: updated_covE.
by split; [apply: upcov_psd (posdef_psd pC) _ | apply: upcov_posdef].
Qed.

Theorem C09_updated_cov_documented_formula : posdef C -> posdef S ->
  A *m C *m A^T \in unitmx ->
  updated_cov_returns
    (invmx (A^T *m (invmx S - invmx (A *m C *m A^T)) *m A + invmx C)).
Proof.
move=> pC pS uP.
have e : pinv (predcov A C) = invmx (A *m C *m A^T) by rewrite predcovE pinv_unit.
have fA : row_free A.
  apply/row_freeP; exists (C *m A^T *m invmx (A *m C *m A^T)).
  by rewrite !mulmxA mulmxV.
by rewrite -e -upcov_doc //; [exact: updated_covE | exact: compat_full].
Qed.

End U.

(** With the defaults (identity covariances) as well. *)
Theorem C07_updated_cov_defaults m n (A : 'M[R]_(m, n)) : row_free A ->
  exists2 U, updated_cov (Dmx A) None None = Ok (Dmx U) & A *m U *m A^T = 1%:M.
Proof.
move=> fA; exists (upcov A 1%:M 1%:M); first exact: updated_cov_coreE.
exact/upcov_push/posdef1.
Qed.

(** ** C15 *)
Definition computing (s : string) :=
  has (String.eqb s) [:: "mud"; "mud_alt"; "map"; "ls"; "all"]%string.

Definition pre (p : lgp R) od :=
  (mean_o <- dsub (ty (truncate p od)) (tb (truncate p od)) ;;
   Am <- dmul (tA (truncate p od)) (lmean p) ;;
   z <- dsub mean_o Am ;; Ok (mean_o, z)).
Definition ac (p : lgp R) := dscale (lalpha p) (lcovi p).

Lemma solve_mud_unf (p : lgp R) od : solve p "mud" od =
  match pre p od with
  | Err e => (p, Err e)
  | Ok (mo, z) => match mud_step (truncate p od) (ac p) z (lmean p) with
                  | Ok v => (set_mud p v, Ok (VArr v)) | Err e => (p, Err e) end
  end.
Proof. by []. Qed.

Lemma solve_mud_alt_unf (p : lgp R) od : solve p "mud_alt" od =
  match pre p od with
  | Err e => (p, Err e)
  | Ok (mo, z) => match mud_alt_step p (truncate p od) (ac p) z (lmean p) with
                  | Ok v => (set_mud_alt p v.1 v.2, Ok (VArr v.1)) | Err e => (p, Err e) end
  end.
Proof. by []. Qed.

Lemma solve_map_unf (p : lgp R) od : solve p "map" od =
  match pre p od with
  | Err e => (p, Err e)
  | Ok (mo, z) => match map_step (truncate p od) (ac p) z (lmean p) with
                  | Ok v => (set_map p v.1 v.2, Ok (VArr v.1)) | Err e => (p, Err e) end
  end.
Proof. by []. Qed.

Lemma solve_ls_unf (p : lgp R) od : solve p "ls" od =
  match pre p od with
  | Err e => (p, Err e)
  | Ok (mo, z) => match ls_step (truncate p od) mo with
                  | Ok v => (set_ls p v, Ok (VArr v)) | Err e => (p, Err e) end
  end.
Proof. by []. Qed.

Lemma solve_all_unf (p : lgp R) od : solve p "all" od =
  match pre p od with
  | Err e => (p, Err e)
  | Ok (mo, z) =>
    match mud_step (truncate p od) (ac p) z (lmean p) with
    | Err e => (p, Err e)
    | Ok v1 =>
    match mud_alt_step p (truncate p od) (ac p) z (lmean p) with
    | Err e => (set_mud p v1, Err e)
    | Ok v2 => let p2 := set_mud_alt (set_mud p v1) v2.1 v2.2 in
    match map_step (truncate p od) (ac p) z (lmean p) with
    | Err e => (p2, Err e)
    | Ok v3 => let p3 := set_map p2 v3.1 v3.2 in
    match ls_step (truncate p od) mo with
    | Err e => (p3, Err e)
    | Ok v4 => (set_ls p3 v4, Ok (VTup [:: v1; v3.1; v4]))
    end end end end end.
Proof. by []. Qed.

Theorem C15_all_agrees (p : lgp R) od p' v : solve p "all" od = (p', Ok v) ->
  exists x1 x2 x3,
  [/\ v = VTup [:: x1; x2; x3],
      (solve p "mud" od).2 = Ok (VArr x1),
      (solve p "map" od).2 = Ok (VArr x2),
      (solve p "ls" od).2 = Ok (VArr x3)
    & p' = (solve (solve (solve (solve p "mud" od).1 "mud_alt" od).1 "map" od).1
              "ls" od).1].
Proof.
rewrite solve_all_unf (solve_mud_unf p) (solve_map_unf p) (solve_ls_unf p).
case Ep: (pre p od) => [[mo z]|] //.
case E1: (mud_step _ _ _ _) => [v1|] //.
case E2: (mud_alt_step _ _ _ _ _) => [v2|] //.
case E3: (map_step _ _ _ _) => [v3|] //.
case E4: (ls_step _ _) => [v4|] // [<- <-].
exists v1, v3.1, v4; split=> //=.
have -> : solve (set_mud p v1) "mud_alt" od
    = (set_mud_alt (set_mud p v1) v2.1 v2.2, Ok (VArr v2.1)).
  transitivity (match pre p od with
  | Err e => (set_mud p v1, Err e)
  | Ok (mo, z) => match mud_alt_step p (truncate p od) (ac p) z (lmean p) with
                  | Ok v => (set_mud_alt (set_mud p v1) v.1 v.2, Ok (VArr v.1))
                  | Err e => (set_mud p v1, Err e) end
  end); [by [] | by rewrite Ep E2].
rewrite [(_, _).1]/=; set p2 := set_mud_alt _ _ _.
have -> : solve p2 "map" od = (set_map p2 v3.1 v3.2, Ok (VArr v3.1)).
  transitivity (match pre p od with
  | Err e => (p2, Err e)
  | Ok (mo, z) => match map_step (truncate p od) (ac p) z (lmean p) with
                  | Ok v => (set_map p2 v.1 v.2, Ok (VArr v.1))
                  | Err e => (p2, Err e) end
  end); [by [] | by rewrite Ep E3].
rewrite [(_, _).1]/=; set p3 := set_map _ _ _.
have -> : solve p3 "ls" od = (set_ls p3 v4, Ok (VArr v4)).
  transitivity (match pre p od with
  | Err e => (p3, Err e)
  | Ok (mo, z) => match ls_step (truncate p od) mo with
                  | Ok v => (set_ls p3 v, Ok (VArr v))
                  | Err e => (p3, Err e) end
  end); [by [] | by rewrite Ep E4].
by [].
Qed.

(** A name that is not one of the five methods computes nothing: the object is
    unchanged and the outcome is the attribute of that name, if any (or the
    ValueError of mis-shaped inputs). *)
Theorem C15_other_names (p : lgp R) od s : ~~ computing s ->
  (solve p s od).1 = p /\
  ((solve p s od).2 = getattribute p s \/ (solve p s od).2 = Err ValueError).
Proof.
rewrite /computing /= orbF !negb_or => /and5P [/negbTE h1 /negbTE h2 /negbTE h3 /negbTE h4 /negbTE h5].
rewrite /solve -/(pre p od) h1 h2 h3 h4 h5 /stage /=.
case E: (pre p od) => [[mo z]|e] /=; first by split=> //; left.
split=> //; right; move: E; rewrite /pre /dsub /dbop.
case: (bdim _ _) => [?|]; last by case=> <-.
case: (bdim _ _) => [?|]; last by case=> <-.
rewrite /= /dmul; case: eqP => [?|_] /=; last by case=> <-.
case: (bdim _ _) => [?|]; last by case=> <-.
by case: (bdim _ _) => [?|] //; case=> <-.
Qed.

(** Names that are not attributes at all raise AttributeError (shapes permitting). *)
Definition attribute_names := [:: "A"; "b"; "y"; "mean_i"; "cov_i"; "cov_o"; "alpha"; "sol";
  "mud"; "mud_alt"; "up_cov"; "map"; "cov_p"; "ls"; "n_params"; "n_features"; "n_samples";
  "compute_functionals"; "solve"; "updated_cov"; "plot_sol"; "plot_contours";
  "plot_fun_contours"]%string.

Theorem C15_unknown_name (p : lgp R) od s :
  ~~ has (String.eqb s) ("all"%string :: attribute_names) ->
  exists2 e, solve p s od = (p, Err e) & e = AttributeError \/ e = ValueError.
Proof.
move=> h; have hc : ~~ computing s.
  move: h; apply: contra; rewrite /computing /= orbF.
  by case/or4P => [->|->|->|/orP [->|->]]; rewrite ?orbT.
have g : getattribute p s = Err AttributeError.
  move: h; rewrite /= orbF !negb_or.
  do ![case/andP=> /negbTE ?]; move/negbTE=> ?.
  rewrite /getattribute /=.
  by do ![match goal with H : String.eqb s _ = false |- _ => rewrite H /=; clear H end].
have [e1 e2] := C15_other_names p od hc.
case E: (solve p s od) e1 e2 => [q r] /= ->; rewrite g => -[] ->.
  by exists AttributeError => //; left.
by exists ValueError => //; right.
Qed.

End LinProps.
