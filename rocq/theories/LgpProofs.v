(** What [solve] returns, for well-shaped problems, in terms of the closed forms
    of LgpTheory. *)
Set Warnings "-notation-overridden,-ambiguous-paths".
From mathcomp Require Import all_ssreflect all_algebra.
From Coq Require Import String.
From Verif Require Import Py Nd Spec LinAlg Dmx DmxProofs LgpModel LgpTheory.
Set Implicit Arguments. Unset Strict Implicit. Unset Printing Implicit Defensive.
Import Order.Theory GRing.Theory Num.Theory.
Local Open Scope ring_scope.

(** [inputs p A b y mu C al]: the object's input attributes hold these matrices
    (whatever has been computed and stored before, and whatever cov_o is). *)
Definition inputs (R : realFieldType) m n (p : lgp R) (A : 'M[R]_(m, n))
    (b y : 'cV[R]_m) (mu : 'cV[R]_n) (C : 'M[R]_n) (al : R) : Prop :=
  [/\ lA p = Dmx A, lb p = Dmx b, ly p = Dmx y
    & [/\ lmean p = Dmx mu, lcovi p = Dmx C & lalpha p = al]].

Section LgpProofs.
Variable R : realFieldType.
Notation dmx := (dmx R).
Notation lgp := (lgp R).

Section Static.
Variables (m n : nat).
Implicit Types (A : 'M[R]_(m, n)) (b y : 'cV[R]_m) (mu x : 'cV[R]_n).
Implicit Types (C : 'M[R]_n) (S : 'M[R]_m) (p : lgp).

Lemma truncate_none p A b y mu C al : inputs p A b y mu C al ->
  let t := truncate p None in
  [/\ tA t = Dmx A, tb t = Dmx b & ty t = Dmx y].
Proof.
case=> eA eb ey _; rewrite /truncate eA eb ey /=.
by rewrite !drows_ge //= minnn.
Qed.

Lemma truncate_none_co p A b y mu C al S : inputs p A b y mu C al ->
  lcovo p = Dmx S -> tco (truncate p None) = Dmx S.
Proof.
by case=> eA eb ey _ eS; rewrite /truncate eA eS /= dblock_ge //= minnn.
Qed.

Lemma mud_stepE t A b y mu C : tA t = Dmx A ->
  mud_step t (Dmx C) (Dmx (resid A b y mu)) (Dmx mu) = Ok (Dmx (mudx A b y mu C)).
Proof.
move=> eA; rewrite /mud_step eA dmulE /= dmulE /= dmulE /=.
rewrite -predcovE dmulE /= -gainE dmulE /=.
by rewrite daddE.
Qed.

Lemma updated_cov_coreE A C S :
  updated_cov_core (Dmx A) (Dmx C) (Dmx S) = Ok (Dmx (upcov A C S)).
Proof.
rewrite /updated_cov_core dmulE /= dmulE /= dmulE /=.
rewrite -predcovE dmulE /= -gainE dsubE /= dmulE /= dmulE /=.
by rewrite dsubE.
Qed.

Lemma mud_alt_stepE p t A b y mu C S : tA t = Dmx A -> tco t = Dmx S ->
  S \in unitmx ->
  mud_alt_step p t (Dmx C) (Dmx (resid A b y mu)) (Dmx mu)
  = Ok (Dmx (mudaltx A b y mu C S), Dmx (upcov A C S)).
Proof.
move=> eA eS uS; rewrite /mud_alt_step eA eS /lgp_updated_cov /= !eqxx /=.
rewrite updated_cov_coreE /= dmulE /= dinvE //= dmulE /= dmulE /=.
by rewrite daddE.
Qed.

Lemma map_stepE t A b y mu C S : tA t = Dmx A -> tco t = Dmx S ->
  S \in unitmx -> C \in unitmx -> precis A C S \in unitmx ->
  map_step t (Dmx C) (Dmx (resid A b y mu)) (Dmx mu)
  = Ok (Dmx (mapx A b y mu C S), Dmx (covp A C S)).
Proof.
move=> eA eS uS uC uH; rewrite /map_step eA eS dinvE //= dmulE /= dmulE /=.
rewrite dinvE //= daddE /= -/(precis A C S) dinvE //= -/(covp A C S).
rewrite dmulE /= dmulE /= dmulE /=.
by rewrite daddE.
Qed.

Lemma prelude p A b y mu C al : inputs p A b y mu C al ->
  (mean_o <- dsub (ty (truncate p None)) (tb (truncate p None)) ;;
   Am <- dmul (tA (truncate p None)) (lmean p) ;;
   z <- dsub mean_o Am ;; Ok (mean_o, z))
  = Ok (Dmx (y - b), Dmx (resid A b y mu)).
Proof.
move=> i; case: (truncate_none i) => -> -> ->; case: i => _ _ _ [-> _ _].
by rewrite dsubE /= dmulE /= dsubE /= residE.
Qed.

(** *** the four methods *)
Lemma solve_mudE p A b y mu C al : inputs p A b y mu C al ->
  solve p "mud" None
  = (set_mud p (Dmx (mudx A b y mu (al *: C))),
     Ok (VArr (Dmx (mudx A b y mu (al *: C))))).
Proof.
move=> i; rewrite /solve (prelude i); case: (truncate_none i) => eA _ _.
case: (i) => _ _ _ [-> -> ->] /=.
by rewrite /stage /= (mud_stepE b y mu _ eA).
Qed.

Lemma solve_mud_altE p A b y mu C al S : inputs p A b y mu C al ->
  tco (truncate p None) = Dmx S -> S \in unitmx ->
  solve p "mud_alt" None
  = (set_mud_alt p (Dmx (mudaltx A b y mu (al *: C) S)) (Dmx (upcov A (al *: C) S)),
     Ok (VArr (Dmx (mudaltx A b y mu (al *: C) S)))).
Proof.
move=> i eS' uS; rewrite /solve (prelude i); case: (truncate_none i) => eA _ _.
case: (i) => _ _ _ [-> -> ->] /=.
by rewrite /stage /= (mud_alt_stepE p b y mu _ eA eS' uS).
Qed.

Lemma solve_mapE p A b y mu C al S : inputs p A b y mu C al ->
  tco (truncate p None) = Dmx S -> S \in unitmx -> al *: C \in unitmx ->
  precis A (al *: C) S \in unitmx ->
  solve p "map" None
  = (set_map p (Dmx (mapx A b y mu (al *: C) S)) (Dmx (covp A (al *: C) S)),
     Ok (VArr (Dmx (mapx A b y mu (al *: C) S)))).
Proof.
move=> i eS' uS uC uH; rewrite /solve (prelude i); case: (truncate_none i) => eA _ _.
case: (i) => _ _ _ [-> -> ->] /=.
by rewrite /stage /= (map_stepE b y mu eA eS' uS uC uH).
Qed.

Lemma solve_lsE p A b y mu C al : inputs p A b y mu C al ->
  solve p "ls" None
  = (set_ls p (Dmx (lsx A b y)), Ok (VArr (Dmx (lsx A b y)))).
Proof.
move=> i; rewrite /solve (prelude i); case: (truncate_none i) => eA _ _.
by rewrite /stage /= /ls_step eA dmulE.
Qed.

(** Whenever 'mud_alt' or 'map' returns at all, the covariances were usable. *)
Lemma solve_mud_alt_inv p A b y mu C al p' v : inputs p A b y mu C al ->
  solve p "mud_alt" None = (p', Ok v) ->
  exists2 S : 'M[R]_m, tco (truncate p None) = Dmx S & S \in unitmx.
Proof.
move=> i; rewrite /solve (prelude i); move: (truncate_none i).
move: (truncate p None) => t [eA _ _].
case: (i) => _ _ _ [-> -> ->] /=.
rewrite /stage /= /mud_alt_step eA /lgp_updated_cov /= eqxx /=.
rewrite /guard; case: (altP (m =P dc (tco t))) => //= e.
case: (updated_cov_core _ _ _) => //= up; case: (dmul up _) => //= UAt.
case E: (dinv (tco t)) => [ci|] //= _; have [k [S [eS uS _]]] := dinv_okE E.
by rewrite eS /= in e; subst k; exists S.
Qed.

Lemma solve_map_inv p A b y mu C al p' v : inputs p A b y mu C al ->
  solve p "map" None = (p', Ok v) ->
  exists S : 'M[R]_m, [/\ tco (truncate p None) = Dmx S, S \in unitmx,
     al *: C \in unitmx & precis A (al *: C) S \in unitmx].
Proof.
move=> i; rewrite /solve (prelude i); move: (truncate_none i).
move: (truncate p None) => t [eA _ _].
case: (i) => _ _ _ [-> -> ->] /=.
rewrite /stage /= /map_step eA.
case E: (dinv (tco t)) => [ci|] //=; have [k [S [eS uS eci]]] := dinv_okE E.
case E2: (dmul _ ci) => [AtCo|] //=.
have [/= ek _ _] := dmul_okE E2; rewrite eci /= in ek; subst k.
move: E2; rewrite eci dmulE => -[<-] /=; rewrite dmulE /=.
case: (boolP (al *: C \in unitmx)) => uC; last by rewrite dinv_sing.
rewrite dinvE //= daddE /= -/(precis A (al *: C) S).
case: (boolP (precis A (al *: C) S \in unitmx)) => uH; last by rewrite dinv_sing.
by move=> _; exists S.
Qed.

End Static.
End LgpProofs.
