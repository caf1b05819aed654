(** Properties C103: what random_linear_problem generates. *)
Set Warnings "-notation-overridden,-ambiguous-paths".
From mathcomp Require Import all_ssreflect all_algebra.
From Coq Require Import String.
From Verif Require Import Py Nd Spec LinAlg Dmx DmxProofs LgpModel LgpTheory LgpProofs
  FunctionalProofs LinProps LinProps2 LinProps3 WmeModel WmeProps WmeProps2 UtilModel2 LinExModel
  LinExProps.
Set Implicit Arguments. Unset Strict Implicit. Unset Printing Implicit Defensive.
Import Order.Theory GRing.Theory Num.Theory.
Local Open Scope ring_scope.

Section C103.
Variable R : rcfType.
Variables (G : Type) (reseed : int -> res G) (randn rand : nat -> G -> seq R * G).
Notation rlp := (random_linear_problem reseed randn rand).

(** The draws as a matrix, row by row. *)
Definition mat_of m n (s : seq R) : 'M[R]_(m, n) := \matrix_(i, j) nth 0 s (i * n + j).

Lemma dmatE m n s : dmat m n s = Dmx (mat_of m n s).
Proof. by apply: dbuildE => i j; rewrite mxE. Qed.

(** The initial mean: the one given (any array with di entries), or the origin. *)
Definition mean_is n (mean_i : option (nd R)) (mu : 'cV[R]_n) : Prop :=
  if mean_i is Some v then holds1 v mu else mu = 0.
(** The initial covariance: the one given, or a diagonal matrix with entries between 1/2 and 3/2
    in decreasing order. *)
Definition cov_is n (cov_i : option (dmx R)) (C : 'M[R]_n) : Prop :=
  if cov_i is Some c then c = Dmx C else
  exists2 d : 'rV[R]_n, C = diag_mx d &
    (forall i, 2%:R^-1 <= d 0 i < 1 + 2%:R^-1) /\ (forall i j : 'I_n, (i <= j)%N -> d 0 j <= d 0 i).

Lemma holds1_nd m (u : 'cV[R]_m) : holds1 (nd_of_dmx (Dmx u)) u.
Proof.
have e := @dcol_ravel R (Dmx u) erefl.
have /= sz := congr1 (@dr R) e; split=> [//|i].
have := congr1 (fun a => dget a i 0) e => /=.
by rewrite dget_build ?sz // -[0%N]/(nat_of_ord (0 : 'I_1)) dgetE => <-.
Qed.

Lemma holds2_nd m n (A : 'M[R]_(m, n)) : holds2 (nd_of_dmx (Dmx A)) A.
Proof.
split=> // i j; have := congr1 (fun a => dget a i j) (dmx_of_nd (Dmx A)).
by rewrite dgetE /dmx_of dget_build.
Qed.

Lemma init_default_cov m n (A : 'M[R]_(m, n)) b y mu C (al : option R) a vb vy vm :
  holds2 a A -> holds1 vb b -> holds1 vy y -> holds1 vm mu ->
  exists p, [/\ lgp_init a (Some vb) (Some vy) (Some vm) (Some (Dmx C)) None al = Ok p,
    inputs p A b y mu C (odflt 1 al) & lcovo p = Dmx (1%:M : 'M_m)].
Proof.
move=> [sa ha] hb hy hm.
have ea : dmx_of a = Dmx A.
  by rewrite /dmx_of /dim sa /=; apply: dbuildE => i j; rewrite ha.
rewrite /lgp_init /ndim sa eqxx [rbind _ _]/= ea /= (dcol_holds hb) (dcol_holds hy).
rewrite (dcol_holds hm) /dim sa hy.1 eqxx; eexists; split; by [].
Qed.

(** What numpy promises about rand: as many numbers as asked for, in [0, 1). *)
Hypothesis rand_size : forall n g, size (rand n g).1 = n.
Hypothesis rand_unit : forall n g x, x \in (rand n g).1 -> 0 <= x < 1.

Lemma cov_diag_is n g : exists2 C, ddiag n (cov_diag (rand n g).1) = Dmx C & @cov_is n None C.
Proof.
set u := (rand n g).1; pose d : 'rV[R]_n := \row_i nth 0 (cov_diag u) i.
have sz : size (cov_diag u) = n by rewrite size_map size_rev size_sort rand_size.
exists (diag_mx d).
  apply: dbuildE => i j; rewrite !mxE -val_eqE /=.
  by case: (nat_of_ord i == j); rewrite ?mulr1n ?mulr0n.
exists d => //; split=> [i|i j ij].
  rewrite mxE; have : nth 0 (cov_diag u) i \in cov_diag u by rewrite mem_nth ?sz.
  case/mapP => x; rewrite mem_rev mem_sort => /rand_unit /andP [x0 x1] ->.
  by rewrite ler_addr x0 ltr_add2r.
rewrite !mxE /cov_diag.
have su : size (rev (sort <=%R u)) = n by rewrite size_rev size_sort rand_size.
rewrite !(nth_map 0) ?su // ler_add2r !nth_rev ?size_sort ?rand_size //.
apply: (sorted_leq_nth le_trans le_refl) => //.
- exact: sort_le_sorted.
- by rewrite inE size_sort rand_size ltn_subrL (leq_ltn_trans _ (ltn_ord i)).
- by rewrite inE size_sort rand_size ltn_subrL (leq_ltn_trans _ (ltn_ord i)).
by rewrite leq_sub2l.
Qed.

(** It always returns when the seed is accepted: data produced by the reference parameter without
    error, standard data covariance and alpha 1; A, b and the reference are consecutive draws. *)
Theorem C103_generates di do_ mean_i cov_i seed g g0 (mu : 'cV[R]_di) :
  seeded reseed seed g = Ok g0 -> mean_is mean_i mu ->
  (forall c, cov_i = Some c -> exists C : 'M[R]_di, c = Dmx C) ->
  exists g' p (A : 'M[R]_(do_, di)) b lam C,
  [/\ rlp di do_ mean_i cov_i seed g = (g', Ok (Dmx lam, p)),
      inputs p A b (A *m lam + b) mu C 1, lcovo p = Dmx (1%:M : 'M_do_), cov_is cov_i C
    & let gA := (randn (do_ * di) g0).2 in let gb := (randn do_ gA).2 in
      [/\ A = mat_of do_ di (randn (do_ * di) g0).1, b = mat_of do_ 1 (randn do_ gA).1
        & lam = mat_of di 1 (randn di gb).1]].
Proof.
move=> es hm hc; rewrite /random_linear_problem es.
case EA: (randn (do_ * di) g0) => [sA gA] /=; case Eb: (randn do_ gA) => [sb gb] /=.
case El: (randn di gb) => [sl gl] /=; rewrite !dmatE dmulE /= daddE.
set A := mat_of do_ di sA; set b := mat_of do_ 1 sb; set lam := mat_of di 1 sl.
have hm' : holds1 (odflt (nd_of_dmx (dzeros di 1)) mean_i) mu.
  by case: (mean_i) hm => [v|->] //=; apply: holds1_nd.
set cg := match cov_i with Some c => (c, gl) | None => _ end.
have [C eC hC] : exists2 C : 'M[R]_di, cg.1 = Dmx C & cov_is cov_i C.
  rewrite /cg; case: (cov_i) hc => [c /(_ c erefl) [C ->]|_]; first by exists C.
  by have [C e h] := cov_diag_is di gl; exists C => //; case: (rand di gl) e.
have [p [ep ip io]] := init_default_cov C None (holds2_nd A) (holds1_nd b)
  (holds1_nd (A *m lam + b)) hm'.
exists cg.2, p, A, b, lam, C.
have -> : cg = (Dmx C, cg.2) by rewrite -eC; case: (cg).
by rewrite ep.
Qed.

(** With a seed, nothing but the seed and the arguments matters. *)
Theorem C103_seed_determines di do_ mean_i cov_i s g g' :
  (rlp di do_ mean_i cov_i (Some s) g).2 = (rlp di do_ mean_i cov_i (Some s) g').2 /\
  (forall e, reseed s = Err e -> rlp di do_ mean_i cov_i (Some s) g = (g, Err e)).
Proof.
by rewrite /random_linear_problem /=; case: (reseed s) => [g0|e] //; split=> // e' [->].
Qed.

Lemma diag_posdef n (d : 'rV[R]_n) : (forall i, 0 < d 0 i) -> posdef (diag_mx d).
Proof.
move=> d0; split; first by rewrite tr_diag_mx.
have qE u : quad (diag_mx d) u = \sum_i d 0 i * u i 0 ^+ 2.
  rewrite /quad -mulmxA mul_diag_mx !mxE; apply: eq_bigr => i _.
  by rewrite !mxE mulrCA expr2.
move=> u u0; rewrite qE lt_neqAle sumr_ge0; last by move=> i _; rewrite mulr_ge0 ?sqr_ge0 // ltW.
rewrite andbT eq_sym psumr_eq0; last by move=> i _; rewrite mulr_ge0 ?sqr_ge0 // ltW.
have [i ui] : exists i, u i 0 != 0.
  apply/existsP; apply: contraNT u0; rewrite negb_exists => /forallP h; apply/eqP/matrixP => i j.
  by rewrite (ord1 j) [RHS]mxE; apply/eqP; have := h i; rewrite negbK.
by apply/allPn; exists i; rewrite ?mem_index_enum //= mulf_neq0 ?expf_neq0 // gt_eqF.
Qed.

Lemma cov_is_posdef n cov_i (C : 'M[R]_n) : cov_is cov_i C ->
  (forall C' : 'M[R]_n, cov_i = Some (Dmx C') -> posdef C') -> posdef C.
Proof.
case: cov_i => [c -> /(_ C erefl) //|[d -> [hd _]] _]; apply: diag_posdef => i.
by apply: lt_le_trans (proj1 (andP (hd i))); rewrite invr_gt0 ltr0n.
Qed.

(** Whatever the draws: all three solutions that do not use a data covariance reproduce the data
    exactly and are at least as close to the reference as the starting point they use; an operator
    without kernel gives back the reference parameter. *)
Theorem C103_solutions di do_ mean_i cov_i seed g g0 (mu : 'cV[R]_di) :
  seeded reseed seed g = Ok g0 -> mean_is mean_i mu ->
  (forall c, cov_i = Some c -> exists2 C : 'M[R]_di, c = Dmx C & posdef C) ->
  exists g' p (A : 'M[R]_(do_, di)) b lam C x z,
  [/\ rlp di do_ mean_i cov_i seed g = (g', Ok (Dmx lam, p)),
      inputs p A b (A *m lam + b) mu C 1,
      [/\ answer p "mud" x, answer p "mud_alt" x & answer p "ls" z]
    & [/\ A *m x = A *m lam, A *m z = A *m lam, mahal C lam x <= mahal C lam mu,
          sqnorm (z - lam) <= sqnorm lam
        & (forall u : 'cV[R]_di, A *m u = 0 -> u = 0) -> x = lam /\ z = lam]].
Proof.
move=> es hm hc.
have [g' [p [A [b [lam [C [e ip io hC _]]]]]]] := C103_generates do_ es hm
  (fun c ec => let: ex_intro2 C eC _ := hc c ec in ex_intro _ C eC).
have pC : posdef C.
  apply: (cov_is_posdef hC) => C' /hc [C'' /Dmx_inj -> //].
have a0 : 0 < 1 :> R := ltr01.
exists g', p, A, b, lam, C, (mudx A b (A *m lam + b) mu C), (lsx A b (A *m lam + b)).
split=> //.
  split; [exact: mud_answer ip _| |by rewrite /answer (solve_lsE ip)].
  have [x h1 h2] := C06_mud_alt_agrees_partial ip io pC (posdef1 R do_) a0
    (or_introl (or_intror (ex_intro _ 1 erefl))).
  by rewrite (answer_inj (mud_answer ip a0) h1).
have p1 := @posdef1 R di; rewrite !ls_as_mud !consistent_fit //; split=> //.
- exact: consistent_le.
- by rewrite -mahal1; apply: le_trans (consistent_le _ _ _ _ p1) _; rewrite mahal1 sub0r -!quad1 quadNv.
by move=> inj; rewrite !injective_recovers.
Qed.
End C103.
