(** Properties C159 and C160: the solutions of a linear problem are linear in data and mean, and
    only the ratio of the covariances matters to them. *)
Set Warnings "-notation-overridden,-ambiguous-paths".
From mathcomp Require Import all_ssreflect all_algebra.
From Coq Require Import String.
From Verif Require Import Py Nd Spec LinAlg Dmx DmxProofs LgpModel LgpTheory LgpProofs LinProps LinProps3 RotProps.
Set Implicit Arguments. Unset Strict Implicit. Unset Printing Implicit Defensive.
Import Order.Theory GRing.Theory Num.Theory.
Local Open Scope ring_scope.

(** ** Specification *)
Section Spec.
Variables (R : realFieldType) (m n : nat).
(** A problem with the map [A], the covariances [C] and [S], and [alpha]; with the offset [b], data [y], mean [mu]. *)
Definition problem (A : 'M[R]_(m, n)) (C : 'M[R]_n) (S : 'M[R]_m) al (b y : 'cV[R]_m) (mu : 'cV[R]_n) (p : lgp R) : Prop :=
  inputs p A b y mu C al /\ lcovo p = Dmx S.
(** The four methods with one solution. *)
Definition single (me : string) : bool := has (String.eqb me) [:: "mud"; "mud_alt"; "map"; "ls"]%string.
End Spec.

Section Linear.
Variables (R : realFieldType) (m n : nat).
Variables (A : 'M[R]_(m, n)) (C : 'M[R]_n) (S : 'M[R]_m) (al : R).
Notation prob := (problem A C S al).

Lemma pre_of b y mu p : prob b y mu p ->
  [/\ pre p None = Ok (Dmx (y - b), Dmx (resid A b y mu)), tA (truncate p None) = Dmx A, tco (truncate p None) = Dmx S,
      ac p = Dmx (al *: C) & lmean p = Dmx mu].
Proof.
move=> [ip eS]; have [a1 _ _] := truncate_none ip; have c1 := truncate_none_co ip eS.
have [_ _ _ [m1 k1 l1]] := ip; split=> //; first exact: (prelude ip).
by rewrite /ac k1 l1.
Qed.

Lemma mud_lin b y mu p : prob b y mu p ->
  (solve p "mud" None).2 = Ok (VArr (Dmx (mu + gain A (al *: C) *m (y - b - A *m mu)))).
Proof. by move=> [ip _]; rewrite (solve_mudE ip) /= /mudx residE. Qed.
Lemma ls_lin b y mu p : prob b y mu p -> (solve p "ls" None).2 = Ok (VArr (Dmx (pinv A *m (y - b)))).
Proof. by move=> [ip _]; rewrite (solve_lsE ip). Qed.
Lemma alt_lin b y mu p : prob b y mu p -> solve p "mud_alt" None =
  if S \in unitmx then (set_mud_alt p (Dmx (mu + upcov A (al *: C) S *m A^T *m invmx S *m (y - b - A *m mu))) (Dmx (upcov A (al *: C) S)),
     Ok (VArr (Dmx (mu + upcov A (al *: C) S *m A^T *m invmx S *m (y - b - A *m mu))))) else (p, Err LinAlgError).
Proof.
move=> /pre_of [e1 e2 e3 e4 e5]; rewrite solve_mud_alt_unf e1 e4 e5 (alt_stepE _ _ _ _ e2 e3) residE.
by case: ifP.
Qed.
Definition regular := [&& S \in unitmx, al *: C \in unitmx & precis A (al *: C) S \in unitmx].
Lemma map_lin b y mu p : prob b y mu p -> solve p "map" None =
  if regular then (set_map p (Dmx (mu + covp A (al *: C) S *m A^T *m invmx S *m (y - b - A *m mu))) (Dmx (covp A (al *: C) S)),
     Ok (VArr (Dmx (mu + covp A (al *: C) S *m A^T *m invmx S *m (y - b - A *m mu))))) else (p, Err LinAlgError).
Proof.
move=> /pre_of [e1 e2 e3 e4 e5]; rewrite solve_map_unf e1 e4 e5 (map_step_all _ _ _ e2 e3) residE /regular.
by case: ifP.
Qed.

(** C159: either every problem with this map, covariances and alpha fails with the same exception,
    or the solution is J mean + K (y - b), with matrices that depend on nothing else. *)
Theorem C159_linear me : single me ->
  (exists e, forall b y mu p, prob b y mu p -> (solve p me None).2 = Err e) \/
  exists (J : 'M[R]_n) (K : 'M[R]_(n, m)), forall b y mu p, prob b y mu p ->
    answer p me (J *m mu + K *m (y - b)).
Proof.
have aff (K : 'M[R]_(n, m)) (b y : 'cV[R]_m) (mu : 'cV[R]_n) : mu + K *m (y - b - A *m mu) = (1%:M - K *m A) *m mu + K *m (y - b).
  by rewrite mulmxBr mulmxBl mul1mx addrA mulmxA addrAC.
rewrite /single /= orbF => /or4P[] /String.eqb_eq ->; rewrite /answer.
- by right; exists (1%:M - gain A (al *: C) *m A), (gain A (al *: C)) => b y mu p hp; rewrite (mud_lin hp) aff.
- case uS : (S \in unitmx); [right | left; exists LinAlgError => b y mu p hp; by rewrite (alt_lin hp) uS].
  set K := upcov A (al *: C) S *m A^T *m invmx S.
  by exists (1%:M - K *m A), K => b y mu p hp; rewrite (alt_lin hp) uS /= -/K aff.
- case uS : regular; [right | left; exists LinAlgError => b y mu p hp; by rewrite (map_lin hp) uS].
  set K := covp A (al *: C) S *m A^T *m invmx S.
  by exists (1%:M - K *m A), K => b y mu p hp; rewrite (map_lin hp) uS /= -/K aff.
- by right; exists 0, (pinv A) => b y mu p hp; rewrite (ls_lin hp) mul0mx add0r.
Qed.

(** Superposition: the solution of a combination of data sets and means is the combination of the solutions. *)
Theorem C159_superposition me c1 c2 b1 y1 mu1 p1 b2 y2 mu2 p2 p3 (x1 x2 : 'cV[R]_n) : single me ->
  prob b1 y1 mu1 p1 -> prob b2 y2 mu2 p2 -> prob (c1 *: b1 + c2 *: b2) (c1 *: y1 + c2 *: y2) (c1 *: mu1 + c2 *: mu2) p3 ->
  answer p1 me x1 -> answer p2 me x2 -> answer p3 me (c1 *: x1 + c2 *: x2).
Proof.
move=> hm h1 h2 h3 a1 a2; case: (C159_linear hm) => [[e he]|[J [K h]]].
  by move: a1; rewrite /answer (he _ _ _ _ h1).
have -> := answer_inj a1 (h _ _ _ _ h1); have -> := answer_inj a2 (h _ _ _ _ h2).
have -> : c1 *: (J *m mu1 + K *m (y1 - b1)) + c2 *: (J *m mu2 + K *m (y2 - b2)) =
  J *m (c1 *: mu1 + c2 *: mu2) + K *m (c1 *: y1 + c2 *: y2 - (c1 *: b1 + c2 *: b2)); last exact: h.
have -> : c1 *: y1 + c2 *: y2 - (c1 *: b1 + c2 *: b2) = c1 *: (y1 - b1) + c2 *: (y2 - b2).
  by rewrite !scalerBr opprD addrACA.
by move: (y1 - b1) (y2 - b2) => d1 d2; rewrite !mulmxDr -!scalemxAr !scalerDr addrACA.
Qed.

(** The covariances do not depend on the data or the mean. *)
Theorem C159_covariances b y mu p b' y' mu' p' : prob b y mu p -> prob b' y' mu' p' ->
  l_up_cov p = None -> l_up_cov p' = None -> l_cov_p p = None -> l_cov_p p' = None ->
  [/\ l_up_cov (solve p "mud_alt" None).1 = l_up_cov (solve p' "mud_alt" None).1,
      l_cov_p (solve p "map" None).1 = l_cov_p (solve p' "map" None).1
    & lgp_updated_cov p None None None = lgp_updated_cov p' None None None].
Proof.
move=> h h' u u' c c'; rewrite (alt_lin h) (alt_lin h') (map_lin h) (map_lin h').
split; [by case: ifP; rewrite //= u | by case: ifP; rewrite //= c |].
case: h => -[eA _ _ [_ eC _]] eS; case: h' => -[eA' _ _ [_ eC' _]] eS'.
by rewrite /lgp_updated_cov /= eA eC eS eA' eC' eS'.
Qed.
End Linear.

(** ** C160: covariances in another unit *)
Section Scale.
Variables (R : realFieldType) (m n : nat).
Variables (A : 'M[R]_(m, n)) (C : 'M[R]_n) (S : 'M[R]_m) (al c : R).
Hypothesis c0 : c != 0.

Lemma upcov_scale : upcov A (c *: C) (c *: S) = c *: upcov A C S.
Proof.
rewrite /upcov gain_scale // scalerBr; congr (_ - _).
have -> : predcov A (c *: C) = c *: predcov A C by rewrite !predcovE -scalemxAr -scalemxAl.
by rewrite -scalerBr -scalemxAr -scalemxAl.
Qed.
Lemma precis_scale : S \in unitmx -> C \in unitmx -> precis A (c *: C) (c *: S) = c^-1 *: precis A C S.
Proof. by move=> uS uC; rewrite /precis !invmxZ' // scalerDr -scalemxAr -scalemxAl. Qed.
Lemma unitZ k (M : 'M[R]_k) a : a != 0 -> (a *: M \in unitmx) = (M \in unitmx).
Proof. by move=> a0; rewrite unitmxZ // unitfE. Qed.
End Scale.
Section Scale2.
Variables (R : realFieldType) (m n : nat).
Variables (A : 'M[R]_(m, n)) (C : 'M[R]_n) (S : 'M[R]_m) (al c : R) (b y : 'cV[R]_m) (mu : 'cV[R]_n) (p p' : lgp R).
Hypotheses (c0 : c != 0) (hp : problem A C S al b y mu p) (hp' : problem A (c *: C) (c *: S) al b y mu p').

(** C160: multiplying both covariances by the same number changes no solution. *)
Theorem C160_same_solutions me : computing me -> (solve p' me None).2 = (solve p me None).2.
Proof.
have sw : al *: (c *: C) = c *: (al *: C) by rewrite !scalerA mulrC.
have mudE : (solve p' "mud" None).2 = (solve p "mud" None).2 by rewrite (mud_lin hp) (mud_lin hp') sw gain_scale.
have lsE : (solve p' "ls" None).2 = (solve p "ls" None).2 by rewrite (ls_lin hp) (ls_lin hp').
have KE (U : 'M[R]_n) : S \in unitmx -> c *: U *m A^T *m invmx (c *: S) = U *m A^T *m invmx S.
  by move=> uS; rewrite invmxZ' // -!scalemxAl -scalemxAr scalerA mulfV // scale1r.
have altE : (solve p' "mud_alt" None).2 = (solve p "mud_alt" None).2.
  rewrite (alt_lin hp) (alt_lin hp') sw unitZ //; case: ifP => // uS /=.
  by rewrite upcov_scale // KE.
have mapE : (solve p' "map" None).2 = (solve p "map" None).2.
  rewrite (map_lin hp) (map_lin hp') /regular sw (@unitZ _ _ S _ c0) (@unitZ _ _ (al *: C) _ c0).
  case uS: (S \in unitmx) => //=; case uC: (al *: C \in unitmx) => //=.
  rewrite precis_scale // (@unitZ _ _ (precis A (al *: C) S) c^-1) ?invr_eq0 //; case: ifP => // uH /=.
  have -> : covp A (c *: (al *: C)) (c *: S) = c *: covp A (al *: C) S.
    by rewrite /covp precis_scale // invmxZ' ?invr_eq0 // invrK.
  by rewrite KE.
have allE : (solve p' "all" None).2 = (solve p "all" None).2.
  move: mudE altE mapE lsE; rewrite !solve_all_unf !solve_mud_unf !solve_mud_alt_unf !solve_map_unf !solve_ls_unf.
  have [-> _ _ _ _] := pre_of hp; have [-> _ _ _ _] := pre_of hp'.
  case: (mud_step _ _ _ _) => [v|e]; case: (mud_step _ _ _ _) => [v'|e'] //=.
  case=> ->; case: (mud_alt_step _ _ _ _ _) => [u|e]; case: (mud_alt_step _ _ _ _ _) => [u'|e'] //=.
  move=> _; case: (map_step _ _ _ _) => [w|e]; case: (map_step _ _ _ _) => [w'|e'] //=.
  case=> ->; case: (ls_step _ _) => [x|e]; case: (ls_step _ _) => [x'|e'] //=.
  by case=> ->.
by rewrite /computing /= orbF => /or4P [||| /orP[]] /String.eqb_eq ->.
Qed.

(** The covariances are multiplied by it. *)
Definition times_c (a a' : dmx R) : Prop := a' = dscale c a.
Theorem C160_covariances : l_up_cov p = None -> l_up_cov p' = None -> l_cov_p p = None -> l_cov_p p' = None ->
  [/\ opt_rel times_c (l_up_cov (solve p "mud_alt" None).1) (l_up_cov (solve p' "mud_alt" None).1),
      opt_rel times_c (l_cov_p (solve p "map" None).1) (l_cov_p (solve p' "map" None).1)
    & both times_c (lgp_updated_cov p None None None) (lgp_updated_cov p' None None None)].
Proof.
have sw : al *: (c *: C) = c *: (al *: C) by rewrite !scalerA mulrC.
move=> u u' d d'; rewrite (alt_lin hp) (alt_lin hp') (map_lin hp) (map_lin hp') sw; split.
- by rewrite unitZ //; case: ifP => uS /=; rewrite ?u ?u' //= /times_c upcov_scale.
- rewrite /regular ?sw (@unitZ _ _ S _ c0) (@unitZ _ _ (al *: C) _ c0); case uS: (S \in unitmx) => /=; last by rewrite d d'.
  case uC: (al *: C \in unitmx) => /=; last by rewrite d d'.
  rewrite precis_scale // (@unitZ _ _ (precis A (al *: C) S) c^-1) ?invr_eq0 //; case: ifP => uH /=; last by rewrite d d'.
  by rewrite /times_c /covp precis_scale // invmxZ' ?invr_eq0 // invrK.
- case: hp => -[eA _ _ [_ eC _]] eS; case: hp' => -[eA' _ _ [_ eC' _]] eS'.
  by rewrite /lgp_updated_cov /= eA eC eS eA' eC' eS' !updated_cov_coreE /= /times_c upcov_scale.
Qed.
End Scale2.
