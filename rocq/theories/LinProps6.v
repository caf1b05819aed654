(** C102: which arguments updated_cov accepts (base.py:1182-1237, funs.py:50-97). *)
Set Warnings "-notation-overridden,-ambiguous-paths".
From mathcomp Require Import all_ssreflect all_algebra.
From Coq Require Import String.
From Verif Require Import Py Nd Spec LinAlg Dmx DmxProofs LgpModel.
Set Implicit Arguments. Unset Strict Implicit. Unset Printing Implicit Defensive.
Import Order.Theory GRing.Theory Num.Theory.
Local Open Scope ring_scope.

Section UpdatedCov.
Variable R : realFieldType.
Notation dmx := (dmx R).

(** A covariance of n parameters, and something that can be subtracted from an m x m array. *)
Definition square_of (n : nat) (c : dmx) : bool := (dr c == n) && (dc c == n).
Definition fits_outputs (m : nat) (c : dmx) : bool :=
  ((dr c == m) || (dr c == 1%N)) && ((dc c == m) || (dc c == 1%N)).

Lemma bdim_keep p q : bdim p q = Some p <-> (q == p) || (q == 1%N).
Proof.
rewrite /bdim eq_sym; case: eqP => [->|h]; first by [].
case: (p =P 1%N) => [->|h1] /=; first by split; [case=> -> | move/eqP=> ->].
by case: eqP.
Qed.

Lemma core_outcome (X ic oc : dmx) :
  (exists2 U, updated_cov_core X ic oc = Ok U & square_of (dc X) U) /\ square_of (dc X) ic && fits_outputs (dr X) oc \/
  updated_cov_core X ic oc = Err ValueError /\ ~~ (square_of (dc X) ic && fits_outputs (dr X) oc).
Proof.
rewrite /updated_cov_core /square_of /fits_outputs.
case: dmulP => [XC /esym e1 r1 c1|/nesym/eqP/negbTE n1]; last by right; rewrite n1.
rewrite e1 eqxx; cbn [rbind].
case: dmulP => [P /= e2 r2 c2|/= n2]; last first.
  by right; rewrite c1 in n2; move/eqP/negbTE: n2 => ->.
rewrite -c1 e2 eqxx; cbn [rbind].
case: dmulP => [CXt /= e3 r3 c3|/= n3]; last by case: n3; rewrite -c1.
cbn [rbind]; case: dmulP => [K /= e4 r4 c4|/= n4]; last by case: n4; rewrite c3 c2.
cbn [rbind]; rewrite /dsub.
have [Pr Pc] : dr P = dr X /\ dc P = dr X by rewrite r2 r1 c2.
have Kr : dr K = dc X by rewrite r4 r3 e1.
have Kc : dc K = dr X by rewrite c4 Pr.
case: dbopP => [D d1 d2|dn]; last first.
  right; split=> //=; rewrite Pr Pc in dn; apply/negP => /andP[/bdim_keep h1 /bdim_keep h2].
  by case: dn; rewrite ?h1 ?h2.
rewrite Pr in d1; rewrite Pc in d2; cbn [rbind].
case: dmulP => [KD /= e5 r5 c5|/= n5]; last first.
  right; split=> //=; apply/negP => /andP[/bdim_keep]; rewrite d1 => -[h] _.
  by case: n5; rewrite Kc h.
cbn [rbind]; case: dmulP => [KDK /= e6 r6 c6|/= n6]; last first.
  right; split=> //=; apply/negP => /andP[_ /bdim_keep]; rewrite d2 => -[h].
  by case: n6; rewrite c5 h.
cbn [rbind]; left.
have o1 : (dr oc == dr X) || (dr oc == 1%N) by apply/bdim_keep; rewrite d1 -e5 Kc.
have o2 : (dc oc == dr X) || (dc oc == 1%N) by apply/bdim_keep; rewrite d2 -c5 e6 Kc.
split; last by rewrite o1 o2.
case: dbopP => [U|]; rewrite r6 c6 r5 Kr e1 -c1 e2 !bdim_same; last by case.
by move=> [h1] [h2]; exists U; rewrite -?h1 -?h2 ?eqxx.
Qed.

(** C102: funs.updated_cov fails with AssertionError when the initial covariance is given and
    does not have one column per parameter, or the data covariance is given and does not have
    one column per output; otherwise with ValueError unless the initial covariance is square
    and the data covariance has one row per output or a single row; and succeeds in all other
    cases, returning a square array with one row per parameter. *)
Theorem C102_updated_cov_outcome (X : dmx) (init_cov data_cov : option dmx) :
  let bad_init := if init_cov is Some c then dc c != dc X else false in
  let bad_data := if data_cov is Some c then dc c != dr X else false in
  let fits := (if init_cov is Some c then dr c == dc X else true) &&
              (if data_cov is Some c then (dr c == dr X) || (dr c == 1%N) else true) in
  [/\ bad_init || bad_data -> updated_cov X init_cov data_cov = Err AssertionError,
      ~~ (bad_init || bad_data) -> ~~ fits -> updated_cov X init_cov data_cov = Err ValueError &
      ~~ (bad_init || bad_data) -> fits ->
        exists2 U, updated_cov X init_cov data_cov = Ok U & dr U = dc X /\ dc U = dc X].
Proof.
move=> bi bd fits.
have E : ~~ (bi || bd) -> updated_cov X init_cov data_cov =
    updated_cov_core X (odflt (@deye R (dc X)) init_cov) (odflt (@deye R (dr X)) data_cov) /\
    square_of (dc X) (odflt (@deye R (dc X)) init_cov) && fits_outputs (dr X) (odflt (@deye R (dr X)) data_cov) = fits.
  rewrite negb_or /updated_cov /bi /bd /fits /square_of /fits_outputs => /andP[].
  case: (init_cov) => [c|] //=; rewrite ?negbK ?eqxx; [move=> /eqP -> | move=> _];
  case: (data_cov) => [d|] //=; rewrite ?negbK ?eqxx /= ?andbT;
  by [move=> /eqP ->; rewrite !eqxx ?andbT | move=> _].
split.
- rewrite /updated_cov /bi /bd; case: (init_cov) => [c|]; last first.
    by rewrite orFb; cbn [rbind]; case: (data_cov) => // d; rewrite eq_sym => /negbTE ->.
  rewrite [dc c == _]eq_sym; case: eqP => [_|] //=; cbn [rbind].
  by case: (data_cov) => // d; rewrite eq_sym => /negbTE ->.
- move=> /E[-> e] nf; case: (core_outcome X (odflt (@deye R (dc X)) init_cov) (odflt (@deye R (dr X)) data_cov)) => -[//].
  by rewrite e (negbTE nf).
move=> /E[-> e] f; case: (core_outcome X (odflt (@deye R (dc X)) init_cov) (odflt (@deye R (dr X)) data_cov)) => -[].
  by case=> U -> /andP[/eqP h1 /eqP h2] _; exists U.
by rewrite e f.
Qed.

(** C102: the same for the method of LinearGaussianProblem, where a missing argument stands for
    the stored array, which is not checked by the assertions. *)
Theorem C102_method_outcome (p : lgp R) (A init_cov data_cov : option dmx) :
  let X := odflt (lA p) A in
  let ic := odflt (lcovi p) init_cov in let oc := odflt (lcovo p) data_cov in
  let bad_init := if init_cov is Some c then dc c != dc X else false in
  let bad_data := if data_cov is Some c then dc c != dr X else false in
  let fits := [&& dr ic == dc X, dc ic == dc X, (dr oc == dr X) || (dr oc == 1%N)
                & (dc oc == dr X) || (dc oc == 1%N)] in
  [/\ bad_init || bad_data -> lgp_updated_cov p A init_cov data_cov = Err AssertionError,
      ~~ (bad_init || bad_data) -> ~~ fits -> lgp_updated_cov p A init_cov data_cov = Err ValueError &
      ~~ (bad_init || bad_data) -> fits ->
        exists2 U, lgp_updated_cov p A init_cov data_cov = Ok U & dr U = dc X /\ dc U = dc X].
Proof.
move=> X ic oc bi bd fits.
have F : fits = square_of (dc X) ic && fits_outputs (dr X) oc by rewrite /square_of /fits_outputs -!andbA.
have E : ~~ (bi || bd) -> lgp_updated_cov p A init_cov data_cov = updated_cov_core X ic oc.
  rewrite negb_or /lgp_updated_cov /bi /bd /ic /oc -/X => /andP[].
  case: (init_cov) => [c|] /=; rewrite ?negbK; [rewrite eq_sym => -> | move=> _];
  case: (data_cov) => [d|] //=; rewrite ?negbK; by [rewrite eq_sym => -> | ].
split.
- rewrite /lgp_updated_cov -/X /bi /bd; case: (init_cov) => [c|]; last first.
    by rewrite orFb; cbn [rbind]; case: (data_cov) => // d; rewrite eq_sym => /negbTE ->.
  rewrite [dc c == _]eq_sym; case: eqP => [_|] //=; cbn [rbind].
  by case: (data_cov) => // d; rewrite eq_sym => /negbTE ->.
- move=> /E -> nf; case: (core_outcome X ic oc) => -[//].
  by rewrite -F (negbTE nf).
move=> /E -> f; case: (core_outcome X ic oc) => -[].
  by case=> U -> /andP[/eqP h1 /eqP h2] _; exists U.
by rewrite -F f.
Qed.

(** The three cases occur: 2 parameters and 1 output; a 3 x 3 initial covariance, a 3 x 2 one, a
    2 x 2 one. *)
Let X12 : dmx := Dmx (const_mx 1 : 'M[R]_(1, 2)).
Example C102_rejected_met : updated_cov X12 (Some (@deye R 3)) None = Err AssertionError.
Proof. by have [-> //] := C102_updated_cov_outcome X12 (Some (@deye R 3)) None. Qed.
Example C102_value_error_met : updated_cov X12 (Some (Dmx (const_mx 1 : 'M[R]_(3, 2)))) None = Err ValueError.
Proof. by have [_ -> //] := C102_updated_cov_outcome X12 (Some (Dmx (const_mx 1 : 'M[R]_(3, 2)))) None. Qed.
Example C102_accepted_met : exists U, updated_cov X12 (Some (@deye R 2)) None = Ok U.
Proof. by have [_ _ [//|//|U ->]] := C102_updated_cov_outcome X12 (Some (@deye R 2)) None; exists U. Qed.
End UpdatedCov.
