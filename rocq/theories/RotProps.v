(** Property C156: the order in which the data and the parameters of a linear problem are listed
    does not matter, whatever the rank of the map. *)
Set Warnings "-notation-overridden,-ambiguous-paths".
From mathcomp Require Import all_ssreflect all_algebra fingroup perm.
From Coq Require Import String.
From Verif Require Import Py Nd Spec LinAlg Dmx DmxProofs LgpModel LgpTheory LgpProofs LinProps LinProps3.
Set Implicit Arguments. Unset Strict Implicit. Unset Printing Implicit Defensive.
Import Order.Theory GRing.Theory Num.Theory.
Local Open Scope ring_scope.

(** ** Specification *)
Section Spec.
Variables (R : realFieldType) (m n : nat).
(** The problem [p'] has the data of [p] in the order [s] and its parameters in the order [t]. *)
Definition relisted (s : 'S_m) (t : 'S_n) (p p' : lgp R) : Prop :=
  exists (A : 'M[R]_(m, n)) (b y : 'cV[R]_m) (mu : 'cV[R]_n) (C : 'M[R]_n) (S : 'M[R]_m) (al : R),
  [/\ inputs p A b y mu C al, lcovo p = Dmx S,
      inputs p' (\matrix_(i, j) A (s i) (t j)) (\col_i b (s i) 0) (\col_i y (s i) 0)
        (\col_j mu (t j) 0) (\matrix_(i, j) C (t i) (t j)) al
    & lcovo p' = Dmx (\matrix_(i, j) S (s i) (s j))].
(** The same in rotated coordinates: [L] acts on the data, [Q] on the parameters. *)
Definition rotated (L : 'M[R]_m) (Q : 'M[R]_n) (p p' : lgp R) : Prop :=
  exists (A : 'M[R]_(m, n)) (b y : 'cV[R]_m) (mu : 'cV[R]_n) (C : 'M[R]_n) (S : 'M[R]_m) (al : R),
  [/\ inputs p A b y mu C al, lcovo p = Dmx S,
      inputs p' (L *m A *m Q^T) (L *m b) (L *m y) (Q *m mu) (Q *m C *m Q^T) al
    & lcovo p' = Dmx (L *m S *m L^T)].
(** Both computations fail with the same exception, or both return, with related results. *)
Definition both T (rel : T -> T -> Prop) (r r' : res T) : Prop :=
  match r, r' with Ok v, Ok v' => rel v v' | Err e, Err e' => e = e' | _, _ => False end.
Definition vec (Q : 'M[R]_n) (a a' : dmx R) : Prop := exists2 x : 'cV[R]_n, a = Dmx x & a' = Dmx (Q *m x).
Definition mat (Q : 'M[R]_n) (a a' : dmx R) : Prop := exists2 U : 'M[R]_n, a = Dmx U & a' = Dmx (Q *m U *m Q^T).
Definition val_rel (rel : dmx R -> dmx R -> Prop) (v v' : pyval R) : Prop :=
  match v, v' with
  | VArr a, VArr a' => rel a a'
  | VTup [:: a; b; c], VTup [:: a'; b'; c'] => [/\ rel a a', rel b b' & rel c c']
  | _, _ => False
  end.
Definition opt_rel (rel : dmx R -> dmx R -> Prop) (o o' : option (dmx R)) : Prop :=
  match o, o' with Some a, Some a' => rel a a' | None, None => True | _, _ => False end.
End Spec.

(** ** Proofs *)
Section Rot.
Variables (R : realFieldType) (m n : nat) (L : 'M[R]_m) (Q : 'M[R]_n).
Hypotheses (hL : L *m L^T = 1%:M) (hQ : Q *m Q^T = 1%:M).

Lemma hL' : L^T *m L = 1%:M. Proof. exact: mulmx1C. Qed.
Lemma hQ' : Q^T *m Q = 1%:M. Proof. exact: mulmx1C. Qed.
Lemma kL k (M : 'M[R]_(k, m)) : M *m L^T *m L = M. Proof. by rewrite -mulmxA hL' mulmx1. Qed.
Lemma kQ k (M : 'M[R]_(k, n)) : M *m Q^T *m Q = M. Proof. by rewrite -mulmxA hQ' mulmx1. Qed.

Lemma inv_rot k (U M : 'M[R]_k) : U *m U^T = 1%:M ->
  (U *m M *m U^T \in unitmx) = (M \in unitmx) /\ (M \in unitmx -> invmx (U *m M *m U^T) = U *m invmx M *m U^T).
Proof.
move=> hU; have [uU uT] : U \in unitmx /\ U^T \in unitmx by exact: mulmx1_unit.
split; first by rewrite !unitmx_mul uU uT andbT.
move=> uM; apply: invmx_unique.
have -> : U *m M *m U^T *m (U *m invmx M *m U^T) = U *m M *m (U^T *m U) *m invmx M *m U^T by rewrite !mulmxA.
by rewrite (mulmx1C hU) mulmx1 -[_ *m M *m _]mulmxA mulmxV // mulmx1.
Qed.

Lemma pinv_rot k l (U : 'M[R]_k) (V : 'M[R]_l) (M : 'M[R]_(k, l)) : U *m U^T = 1%:M -> V *m V^T = 1%:M ->
  pinv (U *m M *m V^T) = V *m pinv M *m U^T.
Proof.
move=> hU hV; have hU' := mulmx1C hU; have hV' := mulmx1C hV.
have [p1 p2 p3 p4] := pinvP M; apply: pinv_unique.
have e1 : U *m M *m V^T *m (V *m pinv M *m U^T) = U *m (M *m pinv M) *m U^T.
  by rewrite !mulmxA -[_ *m V^T *m V]mulmxA hV' mulmx1.
have e2 : V *m pinv M *m U^T *m (U *m M *m V^T) = V *m (pinv M *m M) *m V^T.
  by rewrite !mulmxA -[_ *m U^T *m U]mulmxA hU' mulmx1.
split.
- by rewrite e1 -[in RHS]p1 !mulmxA -[_ *m U^T *m U]mulmxA hU' mulmx1.
- by rewrite e2 -[in RHS]p2 !mulmxA -[_ *m V^T *m V]mulmxA hV' mulmx1.
- by rewrite e1 !trmx_mul !trmxK -trmx_mul p3 !mulmxA.
- by rewrite e2 !trmx_mul !trmxK -trmx_mul p4 !mulmxA.
Qed.

Section Data.
Variables (p p' : lgp R).
Variables (A : 'M[R]_(m, n)) (b y : 'cV[R]_m) (mu : 'cV[R]_n) (C : 'M[R]_n) (S : 'M[R]_m) (al : R).
Notation A' := (L *m A *m Q^T).
Notation C' := (Q *m C *m Q^T).
Notation S' := (L *m S *m L^T).

Lemma rot_resid : resid A' (L *m b) (L *m y) (Q *m mu) = L *m resid A b y mu.
Proof. by rewrite !residE !mulmxBr !mulmxA kQ. Qed.
Lemma rot_predcov : predcov A' C' = L *m predcov A C *m L^T.
Proof. by rewrite !predcovE !trmx_mul trmxK !mulmxA !kQ. Qed.
Lemma rot_gain : gain A' C' = Q *m gain A C *m L^T.
Proof. by rewrite !gainE rot_predcov pinv_rot // !trmx_mul trmxK !mulmxA !kQ !kL. Qed.
Lemma rot_mudx : mudx A' (L *m b) (L *m y) (Q *m mu) C' = Q *m mudx A b y mu C.
Proof. by rewrite /mudx rot_gain rot_resid mulmxDr !mulmxA kL. Qed.
Lemma rot_upcov : upcov A' C' S' = Q *m upcov A C S *m Q^T.
Proof.
rewrite /upcov rot_gain rot_predcov !trmx_mul !trmxK -mulmxBl -mulmxBr.
set D := predcov _ _ - S; rewrite [in RHS]mulmxBr [in RHS]mulmxBl !mulmxA; congr (_ - _).
by rewrite !kL.
Qed.
Lemma rot_lsx : lsx A' (L *m b) (L *m y) = Q *m lsx A b y.
Proof. by rewrite /lsx pinv_rot // -mulmxBr !mulmxA kL. Qed.

Lemma rot_mudalt : S \in unitmx -> mudaltx A' (L *m b) (L *m y) (Q *m mu) C' S' = Q *m mudaltx A b y mu C S.
Proof.
move=> uS; have [_ iS] := inv_rot S hL.
by rewrite /mudaltx rot_upcov rot_resid iS // [RHS]mulmxDr !trmx_mul trmxK !mulmxA !kQ !kL.
Qed.
Lemma rot_precis : S \in unitmx -> C \in unitmx -> precis A' C' S' = Q *m precis A C S *m Q^T.
Proof.
move=> uS uC; have [_ iS] := inv_rot S hL; have [_ iC] := inv_rot C hQ.
by rewrite /precis iS // iC // mulmxDr mulmxDl !trmx_mul trmxK !mulmxA !kL.
Qed.
Lemma rot_covp : S \in unitmx -> C \in unitmx -> precis A C S \in unitmx -> covp A' C' S' = Q *m covp A C S *m Q^T.
Proof. by move=> uS uC uH; rewrite /covp rot_precis //; have [_ ->] := inv_rot (precis A C S) hQ. Qed.
Lemma rot_mapx : S \in unitmx -> C \in unitmx -> precis A C S \in unitmx ->
  mapx A' (L *m b) (L *m y) (Q *m mu) C' S' = Q *m mapx A b y mu C S.
Proof.
move=> uS uC uH; have [_ iS] := inv_rot S hL.
by rewrite /mapx rot_covp // rot_resid iS // [RHS]mulmxDr !trmx_mul trmxK !mulmxA !kQ !kL.
Qed.

(** What each step does, failures included. *)
Lemma alt_stepE (q : lgp R) t z : tA t = Dmx A -> tco t = Dmx S ->
  mud_alt_step q t (Dmx C) (Dmx z) (Dmx mu)
  = if S \in unitmx then Ok (Dmx (mu + upcov A C S *m A^T *m invmx S *m z), Dmx (upcov A C S)) else Err LinAlgError.
Proof.
move=> eA eS; rewrite /mud_alt_step eA eS /lgp_updated_cov /= !eqxx /=.
rewrite updated_cov_coreE /= dmulE /=; case: ifP => uS; last by rewrite dinv_sing ?uS.
by rewrite dinvE //= dmulE /= dmulE /= daddE.
Qed.
Lemma map_step_all t z : tA t = Dmx A -> tco t = Dmx S ->
  map_step t (Dmx C) (Dmx z) (Dmx mu)
  = if [&& S \in unitmx, C \in unitmx & precis A C S \in unitmx]
    then Ok (Dmx (mu + covp A C S *m A^T *m invmx S *m z), Dmx (covp A C S)) else Err LinAlgError.
Proof.
move=> eA eS; rewrite /map_step eA eS.
case: (boolP (S \in unitmx)) => uS; last by rewrite dinv_sing.
rewrite dinvE //= dmulE /= dmulE /=.
case: (boolP (C \in unitmx)) => uC; last by rewrite dinv_sing.
rewrite dinvE //= daddE /= -/(precis A C S).
case: (boolP (precis A C S \in unitmx)) => uH; last by rewrite dinv_sing.
by rewrite dinvE //= -/(covp A C S) dmulE /= dmulE /= dmulE /= daddE.
Qed.
End Data.

Section Solve.
Variables (p p' : lgp R).
Hypothesis hr : rotated L Q p p'.

Lemma stepsE : exists (A : 'M[R]_(m, n)) (b y : 'cV[R]_m) (mu : 'cV[R]_n) (C : 'M[R]_n) (S : 'M[R]_m),
  [/\ pre p None = Ok (Dmx (y - b), Dmx (resid A b y mu)),
      pre p' None = Ok (Dmx (L *m y - L *m b), Dmx (L *m resid A b y mu)),
      [/\ tA (truncate p None) = Dmx A, tA (truncate p' None) = Dmx (L *m A *m Q^T),
          tco (truncate p None) = Dmx S & tco (truncate p' None) = Dmx (L *m S *m L^T)],
      ac p = Dmx C /\ ac p' = Dmx (Q *m C *m Q^T)
    & lmean p = Dmx mu /\ lmean p' = Dmx (Q *m mu)].
Proof.
have [A [b [y [mu [C [S [al [ip eS ip' eS']]]]]]]] := hr.
exists A, b, y, mu, (al *: C), S.
have [a1 _ _] := truncate_none ip; have [a2 _ _] := truncate_none ip'.
have c1 := truncate_none_co ip eS; have c2 := truncate_none_co ip' eS'.
have [_ _ _ [m1 k1 l1]] := ip; have [_ _ _ [m2 k2 l2]] := ip'.
split=> //.
- exact: (prelude ip).
- by rewrite /pre (prelude ip') rot_resid.
- by rewrite /ac k1 l1 k2 l2 /dscale /= -scalemxAr -scalemxAl.
Qed.

(** Each of the four solutions is returned in the other coordinates, or fails in the same way. *)
Lemma rot_mud : both (val_rel (vec Q)) (solve p "mud" None).2 (solve p' "mud" None).2.
Proof.
have [A [b [y [mu [C [S [e1 e2 [a1 a2 _ _] [c1 c2] [m1 m2]]]]]]]] := stepsE.
rewrite !solve_mud_unf e1 e2 c1 c2 m1 m2 (mud_stepE b y mu C a1).
have -> : L *m resid A b y mu = resid (L *m A *m Q^T) (L *m b) (L *m y) (Q *m mu) by rewrite rot_resid.
rewrite (mud_stepE (L *m b) (L *m y) (Q *m mu) _ a2) rot_mudx /=.
by exists (mudx A b y mu C).
Qed.
Lemma rot_ls : both (val_rel (vec Q)) (solve p "ls" None).2 (solve p' "ls" None).2.
Proof.
have [A [b [y [mu [C [S [e1 e2 [a1 a2 _ _] _ _]]]]]]] := stepsE.
rewrite !solve_ls_unf e1 e2 /ls_step a1 a2 /dpinv !dmulE /=.
exists (lsx A b y) => //; congr Dmx; exact: rot_lsx.
Qed.
Lemma rot_mud_alt : both (val_rel (vec Q)) (solve p "mud_alt" None).2 (solve p' "mud_alt" None).2 /\
  (l_up_cov p = None -> l_up_cov p' = None ->
   opt_rel (mat Q) (l_up_cov (solve p "mud_alt" None).1) (l_up_cov (solve p' "mud_alt" None).1)).
Proof.
have [A [b [y [mu [C [S [e1 e2 [a1 a2 s1 s2] [c1 c2] [m1 m2]]]]]]]] := stepsE.
rewrite !solve_mud_alt_unf e1 e2 c1 c2 m1 m2 (alt_stepE mu C p (resid A b y mu) a1 s1)
  (alt_stepE (Q *m mu) (Q *m C *m Q^T) p' (L *m resid A b y mu) a2 s2).
have [-> _] := inv_rot S hL; case: ifP => uS /=; last by split=> // -> ->.
split.
  exists (mudaltx A b y mu C S) => //; congr Dmx; rewrite -(rot_mudalt A b y mu C uS) /mudaltx rot_resid //.
by move=> _ _; exists (upcov A C S) => //; rewrite rot_upcov.
Qed.
Lemma rot_map : both (val_rel (vec Q)) (solve p "map" None).2 (solve p' "map" None).2 /\
  (l_cov_p p = None -> l_cov_p p' = None ->
   opt_rel (mat Q) (l_cov_p (solve p "map" None).1) (l_cov_p (solve p' "map" None).1)).
Proof.
have [A [b [y [mu [C [S [e1 e2 [a1 a2 s1 s2] [c1 c2] [m1 m2]]]]]]]] := stepsE.
rewrite !solve_map_unf e1 e2 c1 c2 m1 m2 (map_step_all mu C (resid A b y mu) a1 s1)
  (map_step_all (Q *m mu) (Q *m C *m Q^T) (L *m resid A b y mu) a2 s2).
have [-> _] := inv_rot S hL; have [-> _] := inv_rot C hQ.
case uS: (S \in unitmx); last by split=> // -> ->.
case uC: (C \in unitmx); last by split=> // -> ->.
rewrite rot_precis //; have [-> _] := inv_rot (precis A C S) hQ.
case uH: (precis A C S \in unitmx); last by split=> // -> ->.
rewrite /=; split.
  exists (mapx A b y mu C S) => //; congr Dmx; rewrite -(rot_mapx b y mu uS uC uH) /mapx rot_resid //.
by move=> _ _; exists (covp A C S) => //; rewrite rot_covp.
Qed.
Lemma rot_all : both (val_rel (vec Q)) (solve p "all" None).2 (solve p' "all" None).2.
Proof.
have := rot_mud; have [+ _] := rot_mud_alt; have [+ _] := rot_map; have := rot_ls.
rewrite !solve_all_unf !solve_mud_unf !solve_mud_alt_unf !solve_map_unf !solve_ls_unf.
have [A [b [y [mu [C [S [-> -> _ _ _]]]]]]] := stepsE.
case: (mud_step _ _ _ _) => [v|e]; case: (mud_step _ _ _ _) => [v'|e'] //=.
case: (mud_alt_step _ _ _ _ _) => [u|e]; case: (mud_alt_step _ _ _ _ _) => [u'|e'] //=.
case: (map_step _ _ _ _) => [w|e]; case: (map_step _ _ _ _) => [w'|e'] //=.
by case: (ls_step _ _) => [x|e]; case: (ls_step _ _) => [x'|e'] //=.
Qed.
Lemma rot_updated_cov : both (mat Q) (lgp_updated_cov p None None None) (lgp_updated_cov p' None None None).
Proof.
have [A [b [y [mu [C [S [al [ip eS ip' eS']]]]]]]] := hr.
case: ip => eA _ _ [_ eC _]; case: ip' => eA' _ _ [_ eC' _].
rewrite /lgp_updated_cov /= eA eA' eC eC' eS eS' !updated_cov_coreE /=.
by exists (upcov A C S) => //; rewrite rot_upcov.
Qed.
End Solve.
End Rot.

Section Theorems.
Variables (R : realFieldType) (m n : nat) (p p' : lgp R).

Theorem C156_rotated (L : 'M[R]_m) (Q : 'M[R]_n) me : L *m L^T = 1%:M -> Q *m Q^T = 1%:M -> rotated L Q p p' ->
  computing me -> both (val_rel (vec Q)) (solve p me None).2 (solve p' me None).2.
Proof.
move=> hL hQ hr; rewrite /computing /= orbF.
case/or4P => [||| /orP[]] /String.eqb_eq ->; first exact: (rot_mud hL hQ hr).
- by have [] := rot_mud_alt hL hQ hr.
- by have [] := rot_map hL hQ hr.
- exact: (rot_ls hL hQ hr).
- exact: (rot_all hL hQ hr).
Qed.

Variables (s : 'S_m) (t : 'S_n).
Lemma perm_orth k (u : 'S_k) : perm_mx u *m (perm_mx u)^T = 1%:M :> 'M[R]_k.
Proof. by rewrite tr_perm_mx -perm_mxM mulgV perm_mx1. Qed.
Lemma perm_act k l (u : 'S_k) (v : 'S_l) (M : 'M[R]_(k, l)) :
  \matrix_(i, j) M (u i) (v j) = perm_mx u *m M *m (perm_mx v)^T.
Proof. by apply/matrixP => i j; rewrite tr_perm_mx -[_ *m M]row_permE -col_permE !mxE. Qed.
Lemma perm_col k (u : 'S_k) (x : 'cV[R]_k) : \col_i x (u i) 0 = perm_mx u *m x.
Proof. by apply/matrixP => i j; rewrite -row_permE !mxE ord1. Qed.
Lemma relisted_rotated : relisted s t p p' -> rotated (perm_mx s) (perm_mx t) p p'.
Proof.
move=> [A [b [y [mu [C [S [al [ip eS ip' eS']]]]]]]].
exists A, b, y, mu, C, S, al; move: ip' eS'; rewrite !perm_act !perm_col => ip' eS'; by split.
Qed.

(** The solution of the relisted problem: entry j of it is entry t j of the original one. *)
Definition listed_vec (a a' : dmx R) : Prop := exists2 x : 'cV[R]_n, a = Dmx x & a' = Dmx (\col_j x (t j) 0).
Definition listed_mat (a a' : dmx R) : Prop := exists2 U : 'M[R]_n, a = Dmx U & a' = Dmx (\matrix_(i, j) U (t i) (t j)).
Lemma vec_listed a a' : vec (perm_mx t) a a' -> listed_vec a a'.
Proof. by case=> x e e'; exists x => //; rewrite perm_col. Qed.
Lemma mat_listed a a' : mat (perm_mx t) a a' -> listed_mat a a'.
Proof. by case=> x e e'; exists x => //; rewrite perm_act. Qed.
Lemma both_imp T (r1 r2 : T -> T -> Prop) (a a' : res T) : (forall v v', r1 v v' -> r2 v v') -> both r1 a a' -> both r2 a a'.
Proof. by move=> h; case: a => [v|e]; case: a' => [v'|e'] //=; exact: h. Qed.
Lemma opt_imp (r1 r2 : dmx R -> dmx R -> Prop) a a' : (forall v v', r1 v v' -> r2 v v') -> opt_rel r1 a a' -> opt_rel r2 a a'.
Proof. by move=> h; case: a => [v|]; case: a' => [v'|] //=; exact: h. Qed.

Lemma val_imp (r1 r2 : dmx R -> dmx R -> Prop) v v' : (forall a a', r1 a a' -> r2 a a') -> val_rel r1 v v' -> val_rel r2 v v'.
Proof.
move=> h; case: v => [a|[|a [|b [|c [|d l]]]]|x|k| |nm] //; case: v' => [a'|[|a' [|b' [|c' [|d' l']]]]|x'|k'| |nm'] //=.
  exact: h.
by case=> h1 h2 h3; split; exact: h.
Qed.

Theorem C156_order me : relisted s t p p' -> computing me ->
  both (val_rel listed_vec) (solve p me None).2 (solve p' me None).2.
Proof.
move=> /relisted_rotated hr hm; apply: both_imp (C156_rotated (perm_orth s) (perm_orth t) hr hm) => v v'.
exact: val_imp vec_listed.
Qed.

(** The covariances the solver stores, and the one updated_cov returns. *)
Theorem C156_covariances : relisted s t p p' ->
  l_up_cov p = None -> l_up_cov p' = None -> l_cov_p p = None -> l_cov_p p' = None ->
  [/\ opt_rel listed_mat (l_up_cov (solve p "mud_alt" None).1) (l_up_cov (solve p' "mud_alt" None).1),
      opt_rel listed_mat (l_cov_p (solve p "map" None).1) (l_cov_p (solve p' "map" None).1)
    & both listed_mat (lgp_updated_cov p None None None) (lgp_updated_cov p' None None None)].
Proof.
move=> /relisted_rotated hr u u' c c'.
have [_ h1] := rot_mud_alt (perm_orth s) (perm_orth t) hr.
have [_ h2] := rot_map (perm_orth s) (perm_orth t) hr.
split; first exact: opt_imp mat_listed (h1 u u').
- exact: opt_imp mat_listed (h2 c c').
- exact: both_imp mat_listed (rot_updated_cov (perm_orth s) (perm_orth t) hr).
Qed.
End Theorems.

Section Constructor.
Variables (R : realFieldType) (m n : nat).
(** The array given for [b], [y] or [mean_i] holds [u]; leaving it out means zeros.  The covariance given is [M];
    leaving it out means the identity. *)
Definition col_arg k (o : option (nd R)) (u : 'cV[R]_k) : Prop := if o is Some v then holds1 v u else u = 0.
Definition cov_arg k (o : option (dmx R)) (M : 'M[R]_k) : Prop := if o is Some a then a = Dmx M else M = 1%:M.

(** Two constructor calls whose arguments differ by the order of data and parameters. *)
Theorem C156_constructor (s : 'S_m) (t : 'S_n) a a' b b' y y' mu mu' C C' S S' al
    (mA : 'M[R]_(m, n)) vb vy (vm : 'cV[R]_n) (mC : 'M[R]_n) (mS : 'M[R]_m) :
  holds2 a mA -> col_arg b vb -> col_arg y vy -> col_arg mu vm -> cov_arg C mC -> cov_arg S mS ->
  holds2 a' (\matrix_(i, j) mA (s i) (t j)) -> col_arg b' (\col_i vb (s i) 0) -> col_arg y' (\col_i vy (s i) 0) ->
  col_arg mu' (\col_j vm (t j) 0) -> cov_arg C' (\matrix_(i, j) mC (t i) (t j)) -> cov_arg S' (\matrix_(i, j) mS (s i) (s j)) ->
  exists p p', [/\ lgp_init a b y mu C S al = Ok p, lgp_init a' b' y' mu' C' S' al = Ok p', relisted s t p p',
    l_up_cov p = None /\ l_up_cov p' = None & l_cov_p p = None /\ l_cov_p p' = None].
Proof.
have colE k (o : option (nd R)) (u : 'cV[R]_k) : col_arg o u -> match o with None => dzeros k 1 | Some v => dcol (data v) end = Dmx u.
  by case: o => [v /dcol_holds|->].
have covE k (o : option (dmx R)) (M : 'M[R]_k) : cov_arg o M -> odflt (deye k) o = Dmx M.
  by case: o => [v -> //|->].
have matE k l (x : nd R) (M : 'M[R]_(k, l)) : holds2 x M -> shape x = [:: k; l] /\ dmx_of x = Dmx M.
  by move=> [e h]; split=> //; rewrite /dmx_of /dim e /=; apply: dbuildE => i j; rewrite h.
have mk x (M : 'M[R]_(m, n)) o1 (u1 : 'cV[R]_m) o2 (u2 : 'cV[R]_m) o3 (u3 : 'cV[R]_n) c1 (M1 : 'M[R]_n) c2 (M2 : 'M[R]_m) :
    holds2 x M -> col_arg o1 u1 -> col_arg o2 u2 -> col_arg o3 u3 -> cov_arg c1 M1 -> cov_arg c2 M2 ->
    exists p, [/\ lgp_init x o1 o2 o3 c1 c2 al = Ok p, inputs p M u1 u2 u3 M1 (odflt 1 al), lcovo p = Dmx M2 & l_up_cov p = None /\ l_cov_p p = None].
  move=> /matE [sx ex] /colE h1 /colE h2 /colE h3 /covE h4 /covE h5.
  rewrite /lgp_init /ndim sx eqxx [rbind _ _]/= ex /= /dim sx [nth 0%N _ 0]/= [nth 0%N _ 1]/= h1 h2 h3 h4 h5 eqxx /=.
  by eexists; split.
move=> h1 h2 h3 h4 h5 h6 k1 k2 k3 k4 k5 k6.
have [p [e1 i1 o1 [x1 y1]]] := mk _ _ _ _ _ _ _ _ _ _ _ _ h1 h2 h3 h4 h5 h6.
have [p' [e2 i2 o2 [x2 y2]]] := mk _ _ _ _ _ _ _ _ _ _ _ _ k1 k2 k3 k4 k5 k6.
exists p, p'; split=> //.
by exists mA, vb, vy, vm, mC, mS, (odflt 1 al); split.
Qed.
End Constructor.
