(** Properties C103 (random_linear_problem) and C104 (more consistent data never moves the
    solutions away from the truth). *)
Set Warnings "-notation-overridden,-ambiguous-paths".
From mathcomp Require Import all_ssreflect all_algebra.
From Coq Require Import String.
From Verif Require Import Py Nd Spec LinAlg Dmx DmxProofs LgpModel LgpTheory LgpProofs
  FunctionalProofs LinProps LinProps2 LinProps3 WmeModel WmeProps WmeProps2 UtilModel2 LinExModel.
Set Implicit Arguments. Unset Strict Implicit. Unset Printing Implicit Defensive.
Import Order.Theory GRing.Theory Num.Theory.
Local Open Scope ring_scope.

Section Nested.
Variable R : realFieldType.

Lemma misfit_true m n (A : 'M[R]_(m, n)) b lam : best_fit A b (A *m lam + b) lam.
Proof. by move=> x; rewrite /misfit subrr -quad1 quad0 sqnorm_ge0. Qed.

Lemma consistent_fit m n (A : 'M[R]_(m, n)) b mu C lam : posdef C ->
  A *m mudx A b (A *m lam + b) mu C = A *m lam.
Proof. by move=> pC; rewrite -(best_same (mud_normal A b _ mu pC) (misfit_true A b lam)). Qed.

Lemma consistent_err m n (A : 'M[R]_(m, n)) b mu C lam : posdef C ->
  let x := mudx A b (A *m lam + b) mu C in
  mahal C mu lam = mahal C mu x + mahal C lam x.
Proof.
move=> pC x; rewrite (@mud_pythagoras _ _ _ A b (A *m lam + b) mu C lam pC).
  by congr (_ + _); rewrite /mahal -quadNv opprB.
by rewrite consistent_fit.
Qed.

Lemma consistent_le m n (A : 'M[R]_(m, n)) b mu C lam : posdef C ->
  mahal C lam (mudx A b (A *m lam + b) mu C) <= mahal C lam mu.
Proof.
move=> pC; have -> : mahal C lam mu = mahal C mu lam by rewrite /mahal -quadNv opprB.
by rewrite (consistent_err A b mu lam pC) ler_addr posdef_quad //; apply: posdef_inv.
Qed.

(** Rows of [A] that are combinations of those of [A'] carry less information. *)
Lemma nested_err m m' n (A : 'M[R]_(m, n)) (A' : 'M[R]_(m', n)) (D : 'M[R]_(m, m')) b b' mu C lam :
  posdef C -> A = D *m A' ->
  mahal C lam (mudx A' b' (A' *m lam + b') mu C) <= mahal C lam (mudx A b (A *m lam + b) mu C).
Proof.
move=> pC eA; set x := mudx A b _ mu C; set x' := mudx A' b' _ mu C.
have e := consistent_err A b mu lam pC; have e' := consistent_err A' b' mu lam pC.
rewrite -/x in e; rewrite -/x' in e'.
have [le _] : mahal C mu x <= mahal C mu x' /\ (mahal C mu x' <= mahal C mu x -> x' = x).
  apply: mud_closest => // z; rewrite /misfit {1}eA -mulmxA consistent_fit // mulmxA -eA.
  by rewrite subrr -quad1 quad0 sqnorm_ge0.
by rewrite -(ler_add2l (mahal C mu x)) -e e' ler_add2r.
Qed.

Lemma ls_as_mud m n (A : 'M[R]_(m, n)) b y : lsx A b y = mudx A b y 0 1%:M.
Proof. by have := @mud_ls R m n A b y 1 (oner_neq0 _) => ->. Qed.

Lemma mahal1 n (lam x : 'cV[R]_n) : mahal 1%:M lam x = sqnorm (x - lam).
Proof. by rewrite /mahal invmx1 quad1. Qed.

Lemma injective_recovers m n (A : 'M[R]_(m, n)) b mu C lam : posdef C ->
  (forall u : 'cV[R]_n, A *m u = 0 -> u = 0) -> mudx A b (A *m lam + b) mu C = lam.
Proof.
move=> pC inj; apply/eqP; rewrite -subr_eq0; apply/eqP/inj.
by rewrite mulmxBr consistent_fit // subrr.
Qed.
End Nested.

(** ** C104 *)
Section Truncation.
Variable R : realFieldType.
Variables (m n : nat) (p : lgp R) (A : 'M[R]_(m, n)) (b : 'cV[R]_m) (mu : 'cV[R]_n) (C : 'M[R]_n).
Variables (S : 'M[R]_m) (al : R) (y : 'cV[R]_m).
Hypothesis ip : inputs p A b y mu C al.
Hypothesis eS : lcovo p = Dmx S.

(** The selection of the first k rows. *)
Definition firsts k : 'I_(minn k m) -> 'I_m := widen_ord (geq_minr k m).
Arguments firsts : clear implicits.

Definition cut k : lgp R :=
  Lgp (Dmx (rowsub (firsts k) A)) (Dmx (rowsub (firsts k) b)) (Dmx (rowsub (firsts k) y)) (Dmx mu)
      (Dmx C) (Dmx (mxsub (firsts k) (firsts k) S)) al None None None None None None.

Lemma cut_inputs k : inputs (cut k) (rowsub (firsts k) A) (rowsub (firsts k) b)
  (rowsub (firsts k) y) mu C al.
Proof. by []. Qed.

Lemma first_rows_cut q k (M : 'M[R]_(m, q)) : first_rows (Posz k) (Dmx M) (Dmx (rowsub (firsts k) M)).
Proof.
split=> // i j hi hj; rewrite /= in hi hj.
rewrite -[i]/(nat_of_ord (Ordinal hi)) -[j]/(nat_of_ord (Ordinal hj)) dgetE mxE.
have hi' : (i < m)%N := leq_trans hi (geq_minr _ _).
rewrite -[nat_of_ord (Ordinal hi)]/(nat_of_ord (Ordinal hi')) dgetE; congr (M _ _); exact: val_inj.
Qed.

Lemma leading_cut k : leading_block (Posz k) (Dmx S) (Dmx (mxsub (firsts k) (firsts k) S)).
Proof.
split=> // i j hi hj; rewrite /= in hi hj.
rewrite -[i]/(nat_of_ord (Ordinal hi)) -[j]/(nat_of_ord (Ordinal hj)) dgetE mxE.
have hi' : (i < m)%N := leq_trans hi (geq_minr _ _).
have hj' : (j < m)%N := leq_trans hj (geq_minr _ _).
rewrite -[nat_of_ord (Ordinal hi)]/(nat_of_ord (Ordinal hi')).
by rewrite -[nat_of_ord (Ordinal hj)]/(nat_of_ord (Ordinal hj')) dgetE; congr (S _ _); apply: val_inj.
Qed.

Lemma solve_cut k method : computing method ->
  (solve p method (Some (Posz k))).2 = (solve (cut k) method None).2.
Proof.
case: ip => eA eb ey [em ec ea] cm.
by apply: C16_output_dim_truncates;
   rewrite ?eA ?eb ?ey ?eS ?em ?ec ?ea //; try exact: first_rows_cut; exact: leading_cut.
Qed.

Lemma rowsub_mul q k (M : 'M[R]_(m, q)) (r : nat) (N : 'M[R]_(q, r)) :
  rowsub (firsts k) M *m N = rowsub (firsts k) (M *m N).
Proof. by rewrite mul_rowsub_mx. Qed.

Lemma rowsub_firsts q k l (M : 'M[R]_(m, q)) : (k <= l)%N ->
  exists D, rowsub (firsts k) M = D *m rowsub (firsts l) M.
Proof.
move=> kl.
have h (i : 'I_(minn k m)) : (i < minn l m)%N.
  by apply: leq_trans (ltn_ord i) _; rewrite leq_min geq_minr andbT (leq_trans (geq_minl _ _)).
exists (rowsub (fun i => Ordinal (h i)) 1%:M); rewrite mul_rowsub_mx mul1mx.
by apply/matrixP => i j; rewrite !mxE; congr (M _ _); apply: val_inj.
Qed.
End Truncation.
Arguments firsts {m} k.

Section C104.
Variable R : realFieldType.

(** Two problems with the same initial mean and covariance, whose data come from the same [lam]
    without error; the rows of the first operator are combinations of those of the second.  The
    second's solutions are at least as close to [lam]. *)
Theorem C104_more_information m m' n (p p' : lgp R) (A : 'M[R]_(m, n)) (A' : 'M[R]_(m', n)) D
    b b' mu C al al' lam :
  inputs p A b (A *m lam + b) mu C al -> inputs p' A' b' (A' *m lam + b') mu C al' ->
  A = D *m A' -> posdef C -> 0 < al -> 0 < al' ->
  exists x x' z z', [/\ answer p "mud" x, answer p' "mud" x', answer p "ls" z & answer p' "ls" z'] /\
  [/\ mahal C lam x' <= mahal C lam x, mahal C lam x <= mahal C lam mu,
      sqnorm (z' - lam) <= sqnorm (z - lam) & sqnorm (z - lam) <= sqnorm lam].
Proof.
move=> ip ip' eA pC a0 a0'.
exists (mudx A b (A *m lam + b) mu C), (mudx A' b' (A' *m lam + b') mu C).
exists (lsx A b (A *m lam + b)), (lsx A' b' (A' *m lam + b')); split.
  by split; [exact: mud_answer ip _|exact: mud_answer ip' _|
             rewrite /answer (solve_lsE ip)|rewrite /answer (solve_lsE ip')].
have p1 := @posdef1 R n; split; [exact: nested_err eA|exact: consistent_le| |];
  rewrite !ls_as_mud -!mahal1; first exact: nested_err eA.
by apply: le_trans (consistent_le _ _ _ _ p1) _; rewrite mahal1 sub0r -!quad1 quadNv.
Qed.

(** Raising [output_dim] on data without error. *)
Theorem C104_output_dim_monotone m n (p : lgp R) (A : 'M[R]_(m, n)) b mu C (S : 'M[R]_m) al lam
    (k l : nat) :
  inputs p A b (A *m lam + b) mu C al -> lcovo p = Dmx S -> posdef C -> 0 < al -> (k <= l)%N ->
  exists x x' z z' : 'cV[R]_n,
  [/\ (solve p "mud" (Some (Posz k))).2 = Ok (VArr (Dmx x)),
      (solve p "mud" (Some (Posz l))).2 = Ok (VArr (Dmx x')),
      (solve p "ls" (Some (Posz k))).2 = Ok (VArr (Dmx z))
    & (solve p "ls" (Some (Posz l))).2 = Ok (VArr (Dmx z'))] /\
  [/\ mahal C lam x' <= mahal C lam x, mahal C lam x <= mahal C lam mu,
      sqnorm (z' - lam) <= sqnorm (z - lam) & sqnorm (z - lam) <= sqnorm lam].
Proof.
move=> ip eS pC a0 kl; have [D eD] := rowsub_firsts A kl.
have e q : rowsub (firsts q) (A *m lam + b)
           = rowsub (firsts q) A *m lam + rowsub (firsts q) b :> 'cV[R]_(minn q m).
  by rewrite mul_rowsub_mx; apply/matrixP => i j; rewrite !mxE.
have := cut_inputs A b mu C S al (A *m lam + b) k.
have := cut_inputs A b mu C S al (A *m lam + b) l.
rewrite !e => il ik.
have [x [x' [z [z' [[h1 h2 h3 h4] hs]]]]] := C104_more_information ik il eD pC a0 a0.
exists x, x', z, z'; split=> //.
by rewrite !(solve_cut ip eS).
Qed.

(** As soon as the first [k] observations determine the parameter, it is returned. *)
Theorem C104_determined m n (p : lgp R) (A : 'M[R]_(m, n)) b mu C (S : 'M[R]_m) al lam (k : nat) :
  inputs p A b (A *m lam + b) mu C al -> lcovo p = Dmx S -> posdef C -> 0 < al ->
  (forall u : 'cV[R]_n, (forall i : 'I_m, (i < k)%N -> (A *m u) i 0 = 0) -> u = 0) ->
  (solve p "mud" (Some (Posz k))).2 = Ok (VArr (Dmx lam)) /\
  (solve p "ls" (Some (Posz k))).2 = Ok (VArr (Dmx lam)).
Proof.
move=> ip eS pC a0 inj.
have inj' (u : 'cV[R]_n) : rowsub (firsts k) A *m u = 0 -> u = 0.
  rewrite mul_rowsub_mx => h; apply: inj => i ik.
  have hi : (i < minn k m)%N by rewrite leq_min ik /=.
  have /matrixP/(_ (Ordinal hi) 0) := h; rewrite !mxE => h0; rewrite -[RHS]h0.
  by apply: eq_bigr => j _; congr (A _ _ * _); apply: val_inj.
have e : rowsub (firsts k) (A *m lam + b)
           = rowsub (firsts k) A *m lam + rowsub (firsts k) b :> 'cV[R]_(minn k m).
  by rewrite mul_rowsub_mx; apply/matrixP => i j; rewrite !mxE.
rewrite !(solve_cut ip eS) //; have := cut_inputs A b mu C S al (A *m lam + b) k; rewrite e => ik.
split; first by have := mud_answer ik a0; rewrite /answer injective_recovers // => ->.
by rewrite (solve_lsE ik) /= ls_as_mud injective_recovers //; apply: posdef1.
Qed.
End C104.
