(** The real numbers of Coq's standard library as a real closed field, so that every theorem
    of this development (stated for an arbitrary [rcfType] or [realFieldType]) applies to
    them.  Only this file and the examples that import it use the standard library's axioms
    about the reals and its epsilon operator; no modelled code here. *)
Set Warnings "-notation-overridden,-ambiguous-paths".
From Coq Require Import Reals Epsilon Ranalysis Lra.
From mathcomp Require Import all_ssreflect all_algebra.
Set Implicit Arguments. Unset Strict Implicit. Unset Printing Implicit Defensive.
Import Order.Theory GRing.Theory Num.Theory.

Definition reqb (x y : R) : bool := if Req_EM_T x y is left _ then true else false.
Lemma reqP : Equality.axiom reqb.
Proof. by move=> x y; rewrite /reqb; case: Req_EM_T => h; constructor. Qed.
Definition R_eqMixin := EqMixin reqP.
Canonical R_eqType := EqType R R_eqMixin.

Definition rfind (P : pred R) (_ : nat) : option R :=
  let x := epsilon (inhabits R0) P in if P x then Some x else None.
Lemma rfind_some P n x : rfind P n = Some x -> P x.
Proof. by rewrite /rfind; case: ifP => // h [<-]. Qed.
Lemma rfind_ex (P : pred R) : (exists x, P x) -> exists n, rfind P n.
Proof. by move=> h; exists 0%N; rewrite /rfind (epsilon_spec (inhabits R0) P h). Qed.
Lemma rfind_ext (P Q : pred R) : P =1 Q -> rfind P =1 rfind Q.
Proof.
move=> e n; rewrite /rfind; have -> : P = Q; last by [].
by apply: FunctionalExtensionality.functional_extensionality => x.
Qed.
Definition R_choiceMixin := Choice.Mixin rfind_some rfind_ex rfind_ext.
Canonical R_choiceType := ChoiceType R R_choiceMixin.

Lemma raddA : associative Rplus. Proof. by move=> x y z; rewrite Rplus_assoc. Qed.
Definition R_zmodMixin := ZmodMixin raddA Rplus_comm Rplus_0_l Rplus_opp_l.
Canonical R_zmodType := ZmodType R R_zmodMixin.

Lemma rmulA : associative Rmult. Proof. by move=> x y z; rewrite Rmult_assoc. Qed.
Lemma rmulDl : left_distributive Rmult Rplus. Proof. by move=> x y z; exact: Rmult_plus_distr_r. Qed.
Lemma r1_neq0 : R1 != R0. Proof. by apply/eqP; exact: R1_neq_R0. Qed.
Definition R_ringMixin := RingMixin rmulA Rmult_1_l Rmult_1_r rmulDl Rmult_plus_distr_l r1_neq0.
Canonical R_ringType := RingType R R_ringMixin.
Canonical R_comRingType := ComRingType R Rmult_comm.

Definition rinv (x : R) : R := if x == R0 then R0 else Rinv x.
Lemma rmulV : GRing.Field.axiom rinv.
Proof. by move=> x x0; rewrite /rinv (negbTE x0); apply: Rinv_l; apply/eqP. Qed.
Lemma rinv0 : rinv R0 = R0. Proof. by rewrite /rinv eqxx. Qed.
Definition R_unitRingMixin := FieldUnitMixin rmulV rinv0.
Canonical R_unitRingType := UnitRingType R R_unitRingMixin.
Canonical R_comUnitRingType := [comUnitRingType of R].
Lemma R_fieldMixin : GRing.Field.mixin_of [unitRingType of R].
Proof. by []. Qed.
Definition R_idomainMixin := FieldIdomainMixin R_fieldMixin.
Canonical R_idomainType := IdomainType R R_idomainMixin.
Canonical R_fieldType := FieldType R R_fieldMixin.

Definition rleb (x y : R) : bool := if Rle_dec x y is left _ then true else false.
Definition rltb (x y : R) : bool := if Rlt_dec x y is left _ then true else false.
Lemma rlebP x y : reflect (Rle x y) (rleb x y).
Proof. by rewrite /rleb; case: Rle_dec => h; constructor. Qed.
Lemma rltbP x y : reflect (Rlt x y) (rltb x y).
Proof. by rewrite /rltb; case: Rlt_dec => h; constructor. Qed.

Lemma rle0D x y : rleb R0 x -> rleb R0 y -> rleb R0 (x + y)%R.
Proof. by move=> /rlebP a /rlebP b; apply/rlebP; exact: Rplus_le_le_0_compat. Qed.
Lemma rle0M x y : rleb R0 x -> rleb R0 y -> rleb R0 (x * y)%R.
Proof. by move=> /rlebP a /rlebP b; apply/rlebP; exact: Rmult_le_pos. Qed.
Lemma rle0_anti x : rleb R0 x -> rleb x R0 -> x = R0.
Proof. by move=> /rlebP a /rlebP b; apply: Rle_antisym. Qed.
Lemma rsub_ge0 x y : rleb R0 (y - x)%R = rleb x y.
Proof.
change (rleb R0 (Rplus y (Ropp x)) = rleb x y).
by apply/rlebP/rlebP; lra.
Qed.
Lemma rle_total x y : rleb x y || rleb y x.
Proof. by apply/orP; case: (Rle_or_lt x y) => h; [left | right]; apply/rlebP; lra. Qed.
Lemma rnormN x : Rabs (- x)%R = Rabs x. Proof. exact: Rabs_Ropp. Qed.
Lemma rge0_norm x : rleb R0 x -> Rabs x = x.
Proof. by move=> /rlebP h; apply: Rabs_right; lra. Qed.
Lemma rlt_def x y : rltb x y = (y != x) && rleb x y.
Proof.
apply/rltbP/andP => [h|[/eqP n /rlebP h]]; last lra.
by split; [apply/eqP; lra | apply/rlebP; lra].
Qed.
Definition R_leMixin : realLeMixin R_idomainType :=
  RealLeMixin rle0D rle0M rle0_anti rsub_ge0 (@rle_total R0) rnormN rge0_norm rlt_def.
Canonical R_porderType := POrderType ring_display R R_leMixin.
Canonical R_latticeType := LatticeType R R_leMixin.
Canonical R_distrLatticeType := DistrLatticeType R R_leMixin.
Canonical R_orderType := OrderType R rle_total.
Canonical R_numDomainType := NumDomainType R R_leMixin.
Canonical R_normedZmodType := NormedZmodType R R R_leMixin.
Canonical R_numFieldType := [numFieldType of R].
Canonical R_realDomainType := [realDomainType of R].
Canonical R_realFieldType := [realFieldType of R].

Lemma RleP (x y : R) : reflect (Rle x y) (x <= y)%R. Proof. exact: rlebP. Qed.
Lemma RltP (x y : R) : reflect (Rlt x y) (x < y)%R. Proof. exact: rltbP. Qed.

Lemma poly_continuity (p : {poly R}) : continuity (fun x => p.[x]%R).
Proof.
elim/poly_ind: p => [|p c ih].
  by apply: (@continuity_const (fun x => (0%R : {poly R}).[x]%R)) => x y; rewrite !horner0.
have e x : ((p * 'X + c%:P).[x])%R = Rplus (Rmult (p.[x])%R x) c.
  by rewrite hornerD hornerMX hornerC.
have -> : (fun x => ((p * 'X + c%:P).[x])%R) = (fun x => Rplus (Rmult (p.[x])%R x) c).
  exact: FunctionalExtensionality.functional_extensionality e.
move=> x.
apply: (@continuity_pt_plus (fun x => Rmult (p.[x])%R x) (fun _ => c)).
  apply: (@continuity_pt_mult (fun x => (p.[x])%R) id); first exact: ih.
  exact: (derivable_continuous_pt _ _ (derivable_pt_id x)).
by apply: continuity_pt_const => y z.
Qed.

Lemma R_closed : Num.real_closed_axiom R_numFieldType.
Proof.
move=> p a b /RleP ab /andP [/RleP pa /RleP pb].
have [x [[ax xb] ex]] := IVT_cor (fun x => p.[x]%R) a b (poly_continuity p) ab ltac:(
  change (Rle (Rmult (p.[a])%R (p.[b])%R) R0);
  rewrite Rmult_comm; replace R0 with (Rmult (p.[b])%R R0) by (exact: Rmult_0_r);
  apply: Rmult_le_compat_l; [exact pb | exact pa]).
by exists x; [apply/andP; split; apply/RleP | apply/rootP].
Qed.
Canonical R_rcfType := RcfType R R_closed.
