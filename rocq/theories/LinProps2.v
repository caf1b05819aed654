(** Properties C16-C24 (continued from LinProps.v). *)
Set Warnings "-notation-overridden,-ambiguous-paths".
From mathcomp Require Import all_ssreflect all_algebra.
From Coq Require Import String.
From Verif Require Import Py Nd Spec LinAlg Dmx DmxProofs LgpModel LgpTheory LgpProofs
  FunctionalProofs LinProps.
Set Implicit Arguments. Unset Strict Implicit. Unset Printing Implicit Defensive.
Import Order.Theory GRing.Theory Num.Theory.
Local Open Scope ring_scope.

(** [first_rows k a a']: [a'] is Python's [a[:k, :]]; [leading_block k a a']: [a'] is
    [a[:k, :k]]. *)
Definition first_rows (R : realFieldType) (k : int) (a a' : dmx R) :=
  [/\ dr a' = slice_len (dr a) (Some k), dc a' = dc a
    & forall i j, (i < dr a')%N -> (j < dc a')%N -> dget a' i j = dget a i j].
Definition leading_block (R : realFieldType) (k : int) (a a' : dmx R) :=
  [/\ dr a' = slice_len (dr a) (Some k), dc a' = slice_len (dc a) (Some k)
    & forall i j, (i < dr a')%N -> (j < dc a')%N -> dget a' i j = dget a i j].

Section LinProps2.
Variable R : realFieldType.
Local Arguments slice_len : simpl never.

Lemma slice_len_le n k : (slice_len n k <= n)%N.
Proof. by case: k => [[k|k]|] /=; rewrite ?geq_minr ?leq_subr. Qed.

Lemma drows_first (a a' : dmx R) k : first_rows k a a' ->
  drows (slice_len (dr a) (Some k)) a = a'.
Proof.
case=> e1 e2 h; apply: dmx_ext; rewrite /= ?e2 // (minn_idPl _) ?slice_len_le ?e1 //.
by move=> i j hi hj; rewrite dget_build ?h ?e1 ?e2 // (minn_idPl _) ?slice_len_le.
Qed.

Lemma dblock_leading (a a' : dmx R) k : leading_block k a a' ->
  dblock (slice_len (dr a) (Some k)) (slice_len (dc a) (Some k)) a = a'.
Proof.
case=> e1 e2 h; apply: dmx_ext; rewrite /= !(minn_idPl _) ?slice_len_le ?e1 ?e2 //.
by move=> i j hi hj; rewrite dget_build ?h ?e1 ?e2 // (minn_idPl _) ?slice_len_le.
Qed.

Theorem C16_output_dim_truncates (p p' : lgp R) (k : int) method :
  dr (lb p) = dr (lA p) -> dr (ly p) = dr (lA p) ->
  dr (lcovo p) = dr (lA p) -> dc (lcovo p) = dr (lA p) ->
  first_rows k (lA p) (lA p') -> first_rows k (lb p) (lb p') ->
  first_rows k (ly p) (ly p') -> leading_block k (lcovo p) (lcovo p') ->
  lmean p' = lmean p -> lcovi p' = lcovi p -> lalpha p' = lalpha p ->
  computing method ->
  (solve p method (Some k)).2 = (solve p' method None).2.
Proof.
move=> eb ey eo eo' fA fb fy fo em ei ea.
have et : truncate p (Some k) = truncate p' None.
  rewrite /truncate /=.
  rewrite (drows_first fA) (drows_first fb) (drows_first fy) (dblock_leading fo).
  case: fA fb fy fo => [a1 _ _] [b1 _ _] [y1 _ _] [o1 o2 _].
  rewrite eb -a1 in b1; rewrite ey -a1 in y1; rewrite eo -a1 in o1.
  rewrite eo' -a1 in o2.
  by rewrite !drows_ge ?dblock_ge ?b1 ?y1 ?o1 ?o2 ?minnn // /slice_len minnn.
have ep : pre p (Some k) = pre p' None by rewrite /pre et em.
have ec : ac p = ac p' by rewrite /ac ei ea.
have eu q q' t c z mu : @mud_alt_step R q t c z mu = mud_alt_step q' t c z mu by [].
rewrite /computing /= orbF => /or4P [/String.eqb_eq->|/String.eqb_eq->|/String.eqb_eq->|/orP [/String.eqb_eq->|/String.eqb_eq->]].
- rewrite !solve_mud_unf ep -et -ec em; case: (pre p' None) => [[mo z]|] //.
  by case: (mud_step _ _ _ _).
- rewrite !solve_mud_alt_unf ep -et -ec em; case: (pre p' None) => [[mo z]|] //.
  by rewrite (eu p p'); case: (mud_alt_step _ _ _ _ _).
- rewrite !solve_map_unf ep -et -ec em; case: (pre p' None) => [[mo z]|] //.
  by case: (map_step _ _ _ _).
- rewrite !solve_ls_unf ep -et; case: (pre p' None) => [[mo z]|] //.
  by case: (ls_step _ _).
rewrite !solve_all_unf ep -et -ec em; case: (pre p' None) => [[mo z]|] //.
case: (mud_step _ _ _ _) => // v1.
rewrite (eu p p'); case: (mud_alt_step _ _ _ _ _) => // v2.
case: (map_step _ _ _ _) => // v3.
by case: (ls_step _ _).
Qed.

(** ** C17, C18 *)
Lemma samplewise1 n f (x : 'cV[R]_n) : samplewise f x^T = [:: f x].
Proof.
rewrite /samplewise enum_ordSl enum_ord0 /=; congr [:: f _].
by apply/matrixP => i j; rewrite !mxE (ord1 j).
Qed.

(** One scalar observation and b = 0: the functional the code evaluates is
    minimised (with value 0) by the MUD point. *)
Theorem C17_dc_minimised_partial n (p : lgp R) (A : 'M[R]_(1, n)) y mu C (S : 'M[R]_1) al k
    (X : 'M[R]_(k, n)) :
  inputs p A 0 y mu C al -> lcovo p = Dmx S -> row_free A -> posdef C -> posdef S ->
  0 < al ->
  exists x, answer p "mud" x /\ exists f : 'cV[R]_n -> R,
    [/\ compute_functionals p (Dmx X) "dc" = Ok (FArr (samplewise f X)),
        compute_functionals p (Dmx x^T) "dc" = Ok (FArr [:: f x])
      & forall x', f x <= f x'].
Proof.
move=> ip eS fA pC pS a0; exists (mudx A 0 y mu C); split; first exact: (mud_answer ip a0).
have uC := posdef_unit pC; have uS := posdef_unit pS.
have uP := predcov_unit fA pC; rewrite predcovE in uP.
have h q (Y : 'M[R]_(q, n)) := cf_allE Y ip eS uS uC uP.
pose f x := quad (invmx S) (A *m x + 0 - (y - 0)) + al * quad (invmx C) (x - mu)
  - al * quad (invmx (A *m C *m A^T)) (A *m (x - mu)).
exists f; split.
- by case: (h _ X).
- by case: (h _ (mudx A 0 y mu C)^T) => _ _ _ ->; rewrite samplewise1.
have key x : f x = quad (invmx S) (A *m x - y)
    + al * quad C ((1%:M - gain A C *m A)^T *m invmx C *m (x - mu)).
  have := @dc_split _ _ _ A 0 y mu C S x fA pC.
  rewrite /dc_objective /bayes_objective /f subr0 addr0 -!addrA -mulrBr => /addrI ->.
  by [].
move=> x'; rewrite !key.
have d0 := (dc_eq0 0 y mu (mudx A 0 y mu C) fA pC pS).2 erefl.
rewrite dc_split // mud_fit // subrr quad0 add0r in d0.
have /eqP := mud_fit 0 y mu fA pC; rewrite addr0 -subr_eq0 => /eqP ->.
rewrite d0 quad0 mulr0 addr0 addr_ge0 //.
- by case: (posdef_psd (posdef_inv pS)).
- by rewrite mulr_ge0 ?(ltW a0) //; case: (posdef_psd pC).
Qed.

Theorem C18_bayes_minimised_partial n (p : lgp R) (A : 'M[R]_(1, n)) y mu C (S : 'M[R]_1) k
    (X : 'M[R]_(k, n)) :
  inputs p A 0 y mu C 1 -> lcovo p = Dmx S -> row_free A -> posdef C -> posdef S ->
  exists x, answer p "map" x /\ exists f : 'cV[R]_n -> R,
    [/\ compute_functionals p (Dmx X) "bayes" = Ok (FArr (samplewise f X)),
        compute_functionals p (Dmx x^T) "bayes" = Ok (FArr [:: f x])
      & forall x', f x <= f x'].
Proof.
move=> ip eS fA pC pS; exists (mapx A 0 y mu (1 *: C) S); split.
  exact: (map_answer ip eS pC pS ltr01).
have uC := posdef_unit pC; have uS := posdef_unit pS.
have uP := predcov_unit fA pC; rewrite predcovE in uP.
have h q (Y : 'M[R]_(q, n)) := cf_allE Y ip eS uS uC uP.
exists (bayes_objective A 0 y mu C S).
have e x : quad (invmx S) (A *m x + 0 - (y - 0)) + 1 * quad (invmx C) (x - mu)
  = bayes_objective A 0 y mu C S x by rewrite /bayes_objective subr0 mul1r.
split.
- by case: (h _ X) => _ _ -> _; congr (Ok (FArr _)); apply: eq_map => i; rewrite e.
- case: (h _ (mapx A 0 y mu (1 *: C) S)^T) => _ _ -> _; rewrite samplewise1.
  by rewrite e.
by move=> x'; rewrite scale1r; case: (@map_min _ _ _ A 0 y mu C S x' pC pS).
Qed.

(** ** C19 *)
Theorem C19_terms_consistent (p : lgp R) (X : dmx R) t dat reg dct bay dcf :
  compute_functionals p X t = Ok (FTup [:: dat; reg; dct; bay; dcf]) ->
  [/\ compute_functionals p X "data" = Ok (FArr dat),
      compute_functionals p X "reg" = Ok (FArr reg),
      compute_functionals p X "dc_term" = Ok (FArr dct),
      compute_functionals p X "bayes" = Ok (FArr bay)
    & compute_functionals p X "dc" = Ok (FArr dcf)]
  /\ [/\ vadd dat reg = Ok bay, vsub bay dct = Ok dcf
       & exists2 rm, vsub reg dct = Ok rm
                     & compute_functionals p X "reg_m" = Ok (FArr rm)].
Proof.
rewrite /compute_functionals.
case: (dsub (ly p) (lb p)) => //= mo; case: (dmul (lA p) _) => //= AX.
case: (dadd AX _) => //= AXb; case: (dsub AXb _) => //= r.
case: (inner_product r _) => //= d0; case: ifP => // _.
case: (dsub X _) => //= dev; case: (inner_product (dtr dev) _) => //= r0; case: ifP => // _.
case: (dmul (lA p) (dtr dev)) => //= Ad; case: (dmul (lA p) (lcovi p)) => //= AC.
case: (dmul AC _) => //= ACA; case: (inner_product Ad _) => //= q0; case: ifP => // _.
case E1: (vsub _ _) => [rm|] //=; case: ifP => // _.
case E2: (vadd _ _) => [ba|] //=; case: ifP => // _.
case E3: (vsub ba _) => [df|] //=; case: ifP => // _ [<- <- <- <- <-].
by split; split=> //; exists rm.
Qed.

(** Pointwise reading for arrays of equal length. *)
Lemma vadd_nth (u v w : seq R) : size u = size v -> vadd u v = Ok w ->
  size w = size u /\ forall i, (i < size u)%N -> nth 0 w i = nth 0 u i + nth 0 v i.
Proof.
move=> e; rewrite /vadd /vbop e bdim_same => -[<-]; rewrite size_map size_iota.
by split=> // i hi; rewrite (nth_map 0%N) ?size_iota // nth_iota // add0n bidx_lt.
Qed.
Lemma vsub_nth (u v w : seq R) : size u = size v -> vsub u v = Ok w ->
  size w = size u /\ forall i, (i < size u)%N -> nth 0 w i = nth 0 u i - nth 0 v i.
Proof.
move=> e; rewrite /vsub /vbop e bdim_same => -[<-]; rewrite size_map size_iota.
by split=> // i hi; rewrite (nth_map 0%N) ?size_iota // nth_iota // add0n bidx_lt.
Qed.

(** A term that is returned earlier never fails because a later one would. *)
Theorem C19_early_terms_succeed (p : lgp R) (X : dmx R) (i j : nat) :
  let names := [:: "data"; "reg"; "dc_term"; "reg_m"; "bayes"; "dc"; "all"]%string in
  (i <= j < 7)%N ->
  is_ok (compute_functionals p X (nth ""%string names j)) ->
  is_ok (compute_functionals p X (nth ""%string names i)).
Proof.
move=> names /andP [ij j7].
suff step k : (k < 6)%N -> is_ok (compute_functionals p X (nth ""%string names k.+1)) ->
    is_ok (compute_functionals p X (nth ""%string names k)).
  elim: j ij j7 => [|j IH] ij j7; first by move: ij; rewrite leqn0 => /eqP ->.
  move: ij; rewrite leq_eqVlt => /orP [/eqP -> //|ij] h.
  by apply: IH; [| exact: ltnW | exact: step].
rewrite {}/names; case: k => [|[|[|[|[|[|k]]]]]] k6; last by exfalso; move: k6.
all: cbn [nth]; rewrite /compute_functionals.
all: cbn [String.eqb Ascii.eqb Bool.eqb andb].
all: by repeat match goal with |- context [rbind ?e _] => case: e => //= ? end.
Qed.

(** ** C20 *)
Theorem C20_full_functional_zero_at_mud m n k (A : 'M[R]_(m, n)) (X : 'M[R]_(k, n))
    b y mu C (S : 'M[R]_m) (p : lgp R) al :
  row_free A -> posdef C -> posdef S -> inputs p A b y mu C al -> 0 < al ->
  exists f : 'cV[R]_n -> R,
  [/\ full_functional (Dmx A) (Dmx X) (Dmx b) (Dmx mu) (CMat (Dmx C)) (Some (Dmx y^T))
        (CMat (Dmx S)) = Ok (samplewise f X),
      forall x, f x = dc_objective A b y mu C S x,
      forall x, 0 <= f x
    & forall x, f x = 0 <-> answer p "mud" x].
Proof.
move=> fA pC pS ip a0; have uC := posdef_unit pC; have uS := posdef_unit pS.
have uP := predcov_unit fA pC; rewrite predcovE in uP.
exists (dc_objective A b y mu C S); split=> // [|x|x].
- by rewrite full_functionalE.
- exact: dc_ge0.
have am := mud_answer ip a0.
split=> [/(dc_eq0 b y mu x fA pC pS) ->|h] //.
by apply/(dc_eq0 b y mu x fA pC pS); apply: answer_inj am.
Qed.

(** numbers stand for multiples of the identity *)
Theorem C20_scalar_covariances m n k (A : 'M[R]_(m, n)) (X : 'M[R]_(k, n))
    b (y : 'cV[R]_m) (mu : 'cV[R]_n) c s :
  full_functional (Dmx A) (Dmx X) (Dmx b) (Dmx mu) (CNum c) (Some (Dmx y^T)) (CNum s)
  = full_functional (Dmx A) (Dmx X) (Dmx (b : 'cV_m)) (Dmx mu) (CMat (Dmx (c%:M : 'M_n)))
      (Some (Dmx y^T)) (CMat (Dmx (s%:M : 'M_m))).
Proof. by rewrite /full_functional /norm_input /norm_data /norm_predicted /= /dscale /= !scalemx1. Qed.

(** norm_data with its default observed_mean always fails (the integer 0 has no
    attribute T), whatever the other arguments. *)
Theorem C20_default_observed_mean_fails op inp dat mean c s :
  exists e, full_functional (R:=R) op inp dat mean c None s = Err e.
Proof.
rewrite /full_functional; case: (norm_input _ _ _) => [i|e]; last by exists e.
rewrite /= /norm_data; case: (dmul _ _) => [AX|e]; last by exists e.
rewrite /=; case: (dadd _ _) => [AX'|e]; last by exists e.
by exists AttributeError.
Qed.

(** ** C23, C24 *)
Theorem C23_parameter_coordinates m n (p p' : lgp R) (A : 'M[R]_(m, n)) b y mu C al
    (T : 'M[R]_n) (S : 'M[R]_m) :
  inputs p A b y mu C al ->
  inputs p' (A *m invmx T) b y (T *m mu) (T *m C *m T^T) al ->
  lcovo p = Dmx S -> lcovo p' = Dmx S ->
  T \in unitmx -> posdef C -> posdef S -> 0 < al ->
  (exists2 x, answer p "mud" x & answer p' "mud" (T *m x))
  /\ (exists2 x, answer p "map" x & answer p' "map" (T *m x)).
Proof.
move=> ip ip' eS eS' uT pC pS a0; split.
  exists (mudx A b y mu C); first exact: (mud_answer ip a0).
  by rewrite -mud_param_coord //; exact: (mud_answer ip' a0).
exists (mapx A b y mu (al *: C) S); first exact: (map_answer ip eS).
have pC' := posdefZ a0 pC.
rewrite -map_param_coord //; [ | exact: posdef_unit | exact/posdef_unit/precis_posdef].
have -> : T *m (al *: C) *m T^T = al *: (T *m C *m T^T).
  by rewrite -scalemxAr -scalemxAl.
apply: (map_answer ip' eS') => //; apply: posdef_sandwich => //.
by rewrite row_free_unit.
Qed.

Theorem C24_data_coordinates m n (p p' : lgp R) (A : 'M[R]_(m, n)) b y mu C al al' L :
  inputs p A b y mu C al -> inputs p' (L *m A) (L *m b) (L *m y) mu C al' ->
  row_free A -> posdef C -> L \in unitmx -> 0 < al -> 0 < al' ->
  exists2 x : 'cV_n, answer p "mud" x & answer p' "mud" x.
Proof.
move=> ip ip' fA pC uL a0 a0'; exists (mudx A b y mu C); first exact: (mud_answer ip a0).
rewrite -(mud_data_coord b y mu fA pC uL); exact: (mud_answer ip' a0').
Qed.

End LinProps2.
