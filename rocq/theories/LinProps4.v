(** Exact forms of C06, C17, C18, and C74: what compute_functionals evaluates. *)
Set Warnings "-notation-overridden,-ambiguous-paths".
From mathcomp Require Import all_ssreflect all_algebra.
From Coq Require Import String.
From Verif Require Import Py Nd Spec LinAlg Dmx DmxProofs LgpModel LgpTheory LgpProofs
  FunctionalProofs LinProps LinProps2.
Set Implicit Arguments. Unset Strict Implicit. Unset Printing Implicit Defensive.
Import Order.Theory GRing.Theory Num.Theory.
Local Open Scope ring_scope.

Section LinProps4.
Variable R : realFieldType.

(** The freshly built problem with these inputs. *)
Definition fresh m n (A : 'M[R]_(m, n)) (b y : 'cV[R]_m) (mu : 'cV[R]_n) (C : 'M[R]_n)
    (S : 'M[R]_m) al : lgp R :=
  Lgp (Dmx A) (Dmx b) (Dmx y) (Dmx mu) (Dmx C) (Dmx S) al None None None None None None.

(** C06, exactly: the two formulas agree for all data iff cov_o commutes with the
    orthogonal projector on the range of A. *)
Theorem C06_mud_alt_agrees_iff m n (A : 'M[R]_(m, n)) b mu C (S : 'M[R]_m) al :
  posdef C -> posdef S -> 0 < al ->
  (forall (p : lgp R) y, inputs p A b y mu C al -> lcovo p = Dmx S ->
     exists2 x : 'cV_n, answer p "mud" x & answer p "mud_alt" x)
  <-> A *m pinv A *m S = S *m (A *m pinv A).
Proof.
move=> pC pS a0; split=> [h|h p y ip eS]; last first.
  exact: (C06_mud_alt_agrees_partial ip eS pC pS a0 (or_intror h)).
have pC' := posdefZ a0 pC; have uS := posdef_unit pS.
set Q := A *m pinv A.
have key (r : 'cV[R]_m) : gain A (al *: C) *m S *m Q *m (invmx S *m r)
    = gain A (al *: C) *m r.
  pose y := r + b + A *m mu; pose p := fresh A b y mu C S al.
  have ip : inputs p A b y mu C al by [].
  have eS : lcovo p = Dmx S by [].
  have er : resid A b y mu = r by rewrite residE /y addrAC addrK addrK.
  have [x h1 h2] := h p y ip eS.
  have e1 : x = mudx A b y mu C := answer_inj h1 (mud_answer ip a0).
  have e2 : x = mudaltx A b y mu (al *: C) S.
    apply: answer_inj h2 _.
    by rewrite /answer (solve_mud_altE ip (truncate_none_co ip eS) uS).
  move: e1; rewrite e2 /mudaltx -(mud_alpha A b y mu C (a := al)) ?gt_eqF // /mudx.
  rewrite er => /addrI; rewrite upcov_At // predcov_comm; last by case: pC'.
  by rewrite (projA _ pC') -/Q !mulmxA.
have key2 : Q *m S *m Q = Q *m S.
  have e : gain A (al *: C) *m S *m Q = gain A (al *: C) *m S.
    have ez (z : 'cV[R]_m) : gain A (al *: C) *m S *m Q *m z = gain A (al *: C) *m S *m z.
      by have := key (S *m z); rewrite !mulmxA -[_ *m invmx S *m S]mulmxA mulVmx // mulmx1.
    apply/matrixP=> i j.
    have := ez (delta_mx j 0); rewrite -!colE => /matrixP /(_ i 0).
    by rewrite !mxE.
  have AG : A *m gain A (al *: C) = Q.
    by rewrite gainE !mulmxA -predcovE projA.
  by have := congr1 (mulmx A) e; rewrite !mulmxA AG.
have sQ : Q^T = Q by case: (pinvP A).
have [sS _] := pS; clear key; clearbody Q.
have : (Q *m S *m Q)^T = (Q *m S)^T by rewrite key2.
by rewrite !trmx_mul sQ sS mulmxA key2.
Qed.

(** C17, exactly, for one observation: the functional is that of the data y - b. *)
Theorem C17_dc_functional_exact n (p : lgp R) (A : 'M[R]_(1, n)) b y mu C (S : 'M[R]_1) al :
  inputs p A b y mu C al -> lcovo p = Dmx S -> row_free A -> posdef C -> posdef S ->
  0 < al ->
  exists f : 'cV[R]_n -> R,
    [/\ forall k (X : 'M[R]_(k, n)),
          compute_functionals p (Dmx X) "dc" = Ok (FArr (samplewise f X)),
        forall x, 0 <= f x,
        forall (p' : lgp R) al', inputs p' A b (y - b) mu C al' -> 0 < al' ->
          forall x, f x = 0 <-> answer p' "mud" x
      & forall x, answer p "mud" x -> f x = quad (invmx S) b].
Proof.
move=> ip eS fA pC pS a0.
have uC := posdef_unit pC; have uS := posdef_unit pS.
have uP := predcov_unit fA pC; rewrite predcovE in uP.
have h q (Y : 'M[R]_(q, n)) := cf_allE Y ip eS uS uC uP.
pose f x := quad (invmx S) (A *m x + b - (y - b)) + al * quad (invmx C) (x - mu)
  - al * quad (invmx (A *m C *m A^T)) (A *m (x - mu)).
pose g x := quad C ((1%:M - gain A C *m A)^T *m invmx C *m (x - mu)).
have key x : f x = quad (invmx S) (A *m x + b - (y - b)) + al * g x.
  have := @dc_split _ _ _ A b (y - b) mu C S x fA pC.
  by rewrite /dc_objective /bayes_objective /f -!addrA -mulrBr => /addrI ->.
have dc x : dc_objective A b (y - b) mu C S x
   = quad (invmx S) (A *m x + b - (y - b)) + g x by rewrite dc_split.
have q0 x : 0 <= quad (invmx S) (A *m x + b - (y - b)) by exact/posdef_quad/posdef_inv.
have g0 x : 0 <= g x by exact: posdef_quad.
have zero x : f x = 0 <-> x = mudx A b (y - b) mu C.
  rewrite -(dc_eq0 b (y - b) mu x fA pC pS) dc key.
  have ag : 0 <= al * g x by rewrite mulr_ge0 // ltW.
  split=> /eqP; rewrite paddr_eq0 // => /andP [/eqP -> e].
    by move: e; rewrite mulf_eq0 gt_eqF //= => /eqP ->; rewrite addr0.
  by rewrite (eqP e) mulr0 addr0.
exists f; split.
- by move=> k X; case: (h _ X).
- by move=> x; rewrite key addr_ge0 // mulr_ge0 // ltW.
- move=> p' al' ip' a0' x; rewrite zero; have am := mud_answer ip' a0'.
  by split=> [->|hx] //; apply: answer_inj am.
move=> x ax; have -> : x = mudx A b y mu C := answer_inj ax (mud_answer ip a0).
have gm : g (mudx A b y mu C) = 0.
  have := (dc_eq0 b y mu (mudx A b y mu C) fA pC pS).2 erefl.
  by rewrite dc_split // mud_fit // subrr quad0 add0r.
by rewrite key gm mulr0 addr0 mud_fit // opprB addrC subrK.
Qed.

(** Hence solve('mud') minimises it exactly when b = 0. *)
Theorem C17_dc_minimised_iff n (p : lgp R) (A : 'M[R]_(1, n)) b y mu C (S : 'M[R]_1) al (x : 'cV[R]_n) v :
  inputs p A b y mu C al -> lcovo p = Dmx S -> row_free A -> posdef C -> posdef S ->
  0 < al -> answer p "mud" x -> compute_functionals p (Dmx x^T) "dc" = Ok (FArr [:: v]) ->
  (forall x' v', compute_functionals p (Dmx (x' : 'cV[R]_n)^T) "dc" = Ok (FArr [:: v']) ->
     v <= v') <-> b = 0.
Proof.
move=> ip eS fA pC pS a0 ax.
have [f [fE f0 fz fm]] := C17_dc_functional_exact ip eS fA pC pS a0.
rewrite fE samplewise1 => -[<-]; rewrite (fm _ ax); split=> [h|-> x' v']; last first.
  by rewrite fE samplewise1 quad0 => -[<-].
pose p' := fresh A b (y - b) mu C S al.
have ip' : inputs p' A b (y - b) mu C al by [].
have am := mud_answer ip' a0; have z0 := (fz _ _ ip' a0 _).2 am.
have := h (mudx A b (y - b) mu C) 0; rewrite fE samplewise1 z0 => /(_ erefl) le0.
apply: (posdef_quad_eq0 (posdef_inv pS)); apply/eqP; rewrite eq_le le0.
exact/posdef_quad/posdef_inv.
Qed.

(** C18, exactly, for one observation: the functional is the Bayesian objective of the
    data y - b with alpha inverted. *)
Theorem C18_bayes_functional_exact n (p p' : lgp R) (A : 'M[R]_(1, n)) b y mu C
    (S : 'M[R]_1) al :
  inputs p A b y mu C al -> lcovo p = Dmx S ->
  inputs p' A b (y - b) mu C al^-1 -> lcovo p' = Dmx S ->
  row_free A -> posdef C -> posdef S -> 0 < al ->
  exists f : 'cV[R]_n -> R,
    [/\ forall k (X : 'M[R]_(k, n)),
          compute_functionals p (Dmx X) "bayes" = Ok (FArr (samplewise f X)),
        forall x, f x = bayes_objective A b (y - b) mu (al^-1 *: C) S x
      & forall x, (forall x', f x <= f x') <-> answer p' "map" x].
Proof.
move=> ip eS ip' eS' fA pC pS a0.
have uC := posdef_unit pC; have uS := posdef_unit pS.
have uP := predcov_unit fA pC; rewrite predcovE in uP.
have h q (Y : 'M[R]_(q, n)) := cf_allE Y ip eS uS uC uP.
have ai0 : 0 < al^-1 by rewrite invr_gt0.
have pC' := posdefZ ai0 pC.
pose f x := quad (invmx S) (A *m x + b - (y - b)) + al * quad (invmx C) (x - mu).
have fE x : f x = bayes_objective A b (y - b) mu (al^-1 *: C) S x.
  by rewrite /bayes_objective invmxZ' ?gt_eqF // invrK quadZ.
exists f; split=> //; first by move=> k X; case: (h _ X).
move=> x; have am := map_answer ip' eS' pC pS ai0.
split=> [hm|ax x'].
  suff -> : x = mapx A b (y - b) mu (al^-1 *: C) S by [].
  have [_ u] := @map_min _ _ _ A b (y - b) mu (al^-1 *: C) S x pC' pS.
  by apply: u; rewrite -!fE.
rewrite (answer_inj ax am) !fE.
by case: (@map_min _ _ _ A b (y - b) mu (al^-1 *: C) S x' pC' pS).
Qed.

(** C74: several observations.  The transposed observed mean is broadcast against the
    samples: any number of samples other than 1 and m is a ValueError, and otherwise
    m values come back, the j-th comparing every observation with the j-th datum. *)
Theorem C74_many_observations_wrong_count m n k (p : lgp R) (A : 'M[R]_(m, n)) b y mu C al
    (X : 'M[R]_(k, n)) t :
  inputs p A b y mu C al -> (1 < m)%N -> k <> 1%N -> k <> m ->
  compute_functionals p (Dmx X) t = Err ValueError.
Proof.
case=> eA eb ey _ m1 k1 km; rewrite /compute_functionals eA eb ey dsubE.
cbn [rbind]; rewrite dmulE; cbn [rbind]; rewrite /dadd dbop_col; cbn [rbind].
rewrite /dsub /dbop /=.
have -> : bdim k m = None.
  by apply/bdim_None; split=> // e; rewrite e ltnn in m1.
by case: (bdim _ _).
Qed.

Theorem C74_many_observations_values m n k (p : lgp R) (A : 'M[R]_(m, n)) b y mu C al
    (S : 'M[R]_m) (X : 'M[R]_(k, n)) (sel : 'I_m -> 'I_k) :
  inputs p A b y mu C al -> lcovo p = Dmx S -> S \in unitmx ->
  k = 1%N \/ k = m -> (forall j, k = m -> sel j = j :> nat) ->
  compute_functionals p (Dmx X) "data"
  = Ok (FArr [seq quad (invmx S)
                   (A *m (row (sel j) X)^T + b - const_mx (y j 0 - b j 0)) | j <- enum 'I_m]).
Proof.
case=> eA eb ey _ eS uS hk hsel; rewrite /compute_functionals eA eb ey eS dsubE.
cbn [rbind]; rewrite dmulE; cbn [rbind]; rewrite /dadd dbop_col; cbn [rbind].
have -> : dsub (Dmx (\matrix_(i, j) ((A *m X^T) i j + b i 0))) (dtr (Dmx (y - b)))
   = Ok (Dmx (\matrix_(i < m, j < m) ((A *m X^T) i (sel j) + b i 0 - (y j 0 - b j 0)))).
  rewrite /dsub /dbop /=.
  have -> : bdim m 1 = Some m by rewrite /bdim; case: eqP => // ->; case: eqP.
  have -> : bdim k m = Some m.
    by rewrite /bdim; case: hk => ->; rewrite ?eqxx //; case: eqP => // <-.
  congr Ok; rewrite /dbuild; congr Dmx; apply/matrixP=> i j; rewrite !mxE.
  have -> : bidx m i = i.
    rewrite /bidx; case: eqP => // e; move: (ltn_ord i); rewrite {2}e; by case: (nat_of_ord i).
  have -> : bidx k j = sel j.
    rewrite /bidx; case: eqP => [e|ne].
      by move: (ltn_ord (sel j)); rewrite {2}e; case: (nat_of_ord _).
    by case: hk => // /hsel ->.
  have -> : bidx m j = j.
    rewrite /bidx; case: eqP => // e; move: (ltn_ord j); rewrite {2}e; by case: (nat_of_ord j).
  rewrite dgetE -[bidx 1 i]/(nat_of_ord (ord0 : 'I_1)) /dtr dgetE !mxE.
  by [].
cbn [rbind]; rewrite inner_productE //=; congr (Ok (FArr _)).
apply: eq_map => j; congr (quad _ _); apply/matrixP=> i l.
rewrite !mxE (ord1 l); congr (_ + _ - _); apply: eq_bigr => q _; by rewrite !mxE.
Qed.

End LinProps4.
