(** Property C144 continued: figures 1 to 6 are completed whenever kernel density estimates work. *)
Set Warnings "-notation-overridden,-ambiguous-paths".
From Coq Require Import String ZArith.
From mathcomp Require Import all_ssreflect all_algebra.
From Verif Require Import Py Nd Xnum Spec LinAlg Dmx DmxProofs LgpModel LgpTheory LgpProofs LinProps UtilModel DensityModel BayesModel UtilModel2
  LinExamples PlotModel PlotProps3 DrawModel DrawProps2 DrawProps3 ContModel ContProps ContProps2 LinExModel LinExProps4 LinExProps5 LinExProps6 LinExProps7 LinExProps8 LinExProps9 PoisExModel SimpleModel CompModel CompProps2 CompProps3 LinFigModel
  LinFigProps CliModel PaperModel SimpleProps PaperProps PaperProps2 PaperProps3.
Set Implicit Arguments. Unset Strict Implicit. Unset Printing Implicit Defensive.
Import Order.Theory GRing.Theory Num.Theory.
Local Open Scope ring_scope.

Section Props.
Variable R : rcfType.
Notation nd := (nd R).
Notation xnum := (xnum R).
Variables (expf : R -> R) (cpi : R) (K : Type) (kde : nd -> unit -> seq xnum -> res K) (kde_pdf : K -> nd -> res (seq xnum))
  (kde_at : K -> seq (seq R) -> res (seq R)) (trunc ln : R -> R).
Variable ns : seq R -> res (seq (seq R)).
Variables (G : Type) (reseed : int -> res G) (randn rand : nat -> G -> seq R * G).
Variables (svdvals : dmx R -> seq R) (svd : forall m n, 'M[R]_(m, n) -> svd_out R m n).
Notation figs := (@figure_pass R expf cpi K kde kde_pdf kde_at trunc ln).
Notation run := (@run_comparison_example R expf cpi K kde kde_pdf kde_at trunc ln).
Notation gen := (@comparison_gen R expf cpi K kde kde_pdf kde_at trunc ln G randn rand).
Notation paper := (@mud_paper_linear R expf cpi K kde kde_pdf kde_at trunc ln ns G reseed randn rand svdvals svd).
Notation stages := (@stages R G reseed).
Notation comp_stage := (@comp_stage R expf cpi K kde kde_pdf kde_at trunc ln G randn rand).
Notation cont_stage := (@cont_stage R ns G).
Notation wme_stage := (@wme_stage R G reseed randn rand svdvals).
Notation high_dim_stage := (@high_dim_stage R G reseed randn rand svd).
Notation pic := (pic R).

Hypothesis rand_size : forall n g, size (rand n g).1 = n.
Hypothesis rand_unit : forall n g x, x \in (rand n g).1 -> 0 <= x < 1.
Hypothesis svd_size : forall m n (A : 'M[R]_(m, n)), size (sv_s (svd A)) = minn m n.
Hypothesis cpi_pos : 0 < cpi.
Hypothesis exp_pos : forall x, 0 < expf x.
Hypothesis exp_incr : forall x y, x < y -> expf x < expf y.
Hypothesis exp_add : forall x y, expf (x + y) = expf x * expf y.
(** Kernel density estimates of n > 0 numbers with n weights never raise. *)
Hypothesis kde_works : forall (v : seq R) (w : seq xnum), v != [::] -> size w = size v ->
  exists k f, kde (Nd [:: size v; 1%N] v) tt w = Ok k /\ estimates kde_at k f.
Hypothesis kde_pdf_works : forall k n (v : seq R), exists2 pr, kde_pdf k (Nd [:: n; 1%N] v) = Ok pr & size pr = n.
Notation pass := (@comparison_pass R expf cpi K kde kde_pdf trunc ln).

Lemma pass_completes N u z sp cl : 0 < N -> (0 <= u 0%N < 1) ->
  exists fs r, figs 5 (Posz 1000) (25%:R / 100%:R) (1 / 10%:R) [:: -1; 1] true N u z sp cl = (fs, Ok r).
Proof.
move=> n0 hu.
have ab : -1 < 1 :> R by rewrite (lt_trans (_ : -1 < 0)) ?ltr01 ?oppr_lt0 ?ltr01.
have s0 : 0 < 1 / 10%:R :> R by rewrite div1r invr_gt0 ltr0n.
have [D [B P]] : exists D B, pass 5 (Posz 1000) (25%:R / 100%:R) (1 / 10%:R) [:: -1; 1] true N u z = Ok (D, B).
  have := @C120_returns R expf cpi K kde kde_pdf trunc ln cpi_pos exp_pos exp_incr exp_add 5 (Posz 1000) (25%:R / 100%:R) (1 / 10%:R) (-1) 1 true N u z ab s0 n0 isT.
  have -> : has (fun x : R => -1 <= x <= 1) (mkseq u (absz (Posz 1000))).
    apply/hasP; exists (u 0%N); first by apply/mapP; exists 0%N.
    by case/andP: hu => h1 h2; rewrite (ltW h2) andbT; apply: le_trans h1; rewrite oppr_le0 ler01.
  case: (pass _ _ _ _ _ _ _ _ _) => [[D B]|e h]; first by exists D, B.
  exfalso; suff: false = true by []; apply: h => xs xn.
  have [k [f [hk _]]] := @kde_works xs (nseq (size xs) (Fin 1)) xn (size_nseq _ _).
  by have [pr h1 h2] := kde_pdf_works k (size xs) xs; exists k, pr.
have hsz k n (v : seq R) pr : kde_pdf k (Nd [:: n; 1%N] v) = Ok pr -> size pr = n.
  by have [pr' -> h2] := kde_pdf_works k n v; case=> <-.
have [xs [data_ [rs [k0 [ep [_ srs] h0 h]]]]] := C141_figures kde_at sp cl hsz P ab s0 n0.
have xn : xs != [::].
  have [xs' [sn [el _] _ _ _]] := C116_data ep.
  by rewrite -size_eq0; apply/eqP => e; move: el sn; rewrite /col e => -[<-].
pose ws : seq xnum := mkseq (fun i => Fin ((if -1 <= nth 0 xs i <= 1 then 1 / (1 - -1) else 0) *
   \prod_(d <- data_) nval expf cpi d (1 / 10%:R) (nth 0 xs i ^+ 5))) (size xs).
have sw : size ws = size xs by rewrite size_mkseq.
have qn : [seq x ^+ 5 | x <- xs] != [::] by rewrite -size_eq0 size_map size_eq0.
have [ku [fu [e1 g1]]] := @kde_works xs rs xn srs.
have [kp [fp [e2 g2]]] := @kde_works xs ws xn sw.
have [kq [fq [e3 g3]]] := @kde_works _ rs qn (etrans srs (esym (size_map _ _))).
have [kr [fr [e4 g4]]] := @kde_works _ ws qn (etrans sw (esym (size_map _ _))).
have [k5 [f5 [e5 g5]]] := @kde_works _ (nseq (size xs) (Fin 1)) qn (etrans (size_nseq _ _) (esym (size_map _ _))).
rewrite size_map in e3 e4 e5; move: h0; rewrite e5 => -[e6]; rewrite e6 in g5.
by have -> := h ws ku kp kq kr fu fp f5 fq fr sw (fun i hi => nth_mkseq _ _ hi) e1 e2 e3 e4 g1 g2 g5 g3 g4; do 2 eexists.
Qed.

Lemma comparison_completes d Ns g : all (fun N : int => 0 < N) Ns ->
  exists g' fs rs, comparison_run expf cpi kde kde_pdf kde_at trunc ln randn rand d Ns g = (g', (fs, Ok rs)).
Proof.
rewrite /comparison_run; elim: Ns g => [|N Ns ih] g; first by do 3 eexists.
cbn [all] => /andP [hN hNs]; cbn [comparison_gen].
have s0 : 1 / 10%:R != 0 :> R by rewrite div1r invr_eq0 pnatr_eq0.
case P: (pass_draws _ _ _ _ _ _ _) => [[u z] g1].
have hu : 0 <= u 0%N < 1.
  have -> : u = nth 0 (rand 1000 g).1.
    move: P; rewrite /pass_draws [size _ == _]/= (negbTE s0) orbF eqxx; case: (rand 1000 g) => a b; cbn [fst snd].
    by case: (N == 1); case: (N) => m; try case: (randn m b) => a' b'; case.
  by apply: (rand_unit (n := 1000) (g := g)); apply: mem_nth; rewrite rand_size.
have [fs [r ->]] := pass_completes z (Some d) false hN hu.
by have [g' [fs' [rs ->]]] := ih g1 hNs; do 3 eexists.
Qed.

(** C144: as long as kernel density estimates do not raise, figures 1 to 6 are completed, whatever the
    generator draws. *)
Theorem C144_total cwd sp seed g g0 g21 v :
  seeded reseed seed g = Ok g0 -> reseed 21 = Ok g21 -> ns [:: 1; 1] = Ok [:: [:: v.1; v.2]] ->
  exists g' fs, paper cwd sp seed g = (g', (fs, Ok tt)).
Proof.
move=> hs hr hn; pose d := figures_dir cwd sp.
have [g1 [fs1 [rs1 c1]]] := @comparison_completes d [:: Posz 1] g0 isT.
have [g2 h2] := @seeded_again G reseed seed g g0 g1 hs.
have [g3 [fs2 [rs2 c2]]] := @comparison_completes d [:: Posz 5; Posz 10; Posz 20] g2 isT.
have [g' [fs3 e]] := C144_completes svdvals rand_size rand_unit svd_size hs hr hn c1 h2 c2.
by exists g', (map (@PComp R) fs1 ++ map (@PComp R) fs2 ++ fs3).
Qed.
End Props.
