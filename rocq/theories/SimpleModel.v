(** Model of examples/simple.py (polynomial_1D_data, identity_1D_density_prob,
    identity_1D_bayes_prob) and of run_comparison_example in examples/comparison.py, on top of
    the models of DensityProblem and BayesProblem, with scipy's uniform and normal
    distributions instead of arbitrary ones. *)
Set Warnings "-notation-overridden,-ambiguous-paths".
From mathcomp Require Import all_ssreflect all_algebra.
From Verif Require Import Py Nd Xnum UtilModel DensityModel BayesModel.
Set Implicit Arguments. Unset Strict Implicit. Unset Printing Implicit Defensive.
Import Order.Theory GRing.Theory Num.Theory.
Local Open Scope ring_scope.

(** The distribution objects used: [Uni loc scale] = scipy's uniform(loc, scale) and
    [Nor loc scale] = norm(loc, scale), with one entry per column for array arguments;
    [Other f] another univariate distribution with the density [f]; [Est k] a kernel density
    estimate. *)
Inductive sdist (R K : Type) :=
  | Uni of seq R & seq R | Nor of seq (xnum R) & R | Other of (R -> xnum R) | Est of K.
Arguments Uni {R K}. Arguments Nor {R K}. Arguments Other {R K}. Arguments Est {R K}.

Section Simple.
Variable R : rcfType.
Notation xnum := (xnum R).
Notation nd := (nd R).
(** Oracles: the exponential function, 1/sqrt(2 pi), kernel density estimates (scipy's
    gaussian_kde), and the value of a kernel density estimate at an array. *)
Variable expf : R -> R.
Variable cpi : R.
Variable K : Type.
Variable kde : nd -> unit -> seq xnum -> res K.
Variable kde_pdf : K -> nd -> res (seq xnum).
Variables trunc ln : R -> R.
Notation sdist := (sdist R K).
Notation dprob := (dprob R sdist).
Notation bprob := (bprob R sdist).

(** scipy.stats.uniform.pdf at one point: nan for a scale that is not positive. *)
Definition updf (loc scale x : R) : xnum :=
  if 0 < scale then Fin (if (loc <= x) && (x <= loc + scale) then 1 / scale else 0) else NaN.
(** scipy.stats.norm.pdf at one point; a nan location gives nan. *)
Definition npdf (loc : xnum) (scale x : R) : xnum :=
  if loc is Fin m then
    if 0 < scale then Fin (cpi * expf (- (((x - m) / scale) ^+ 2 / 2%:R)) / scale) else NaN
  else NaN.

(** One density per column, broadcast against the columns of an array: numpy's rule for the
    last axis (the shorter one must have length 1). *)
Definition spread (fs : seq (R -> xnum)) (r : seq R) : seq xnum :=
  [seq nth (fun _ => NaN) fs (if size fs == 1%N then 0%N else j)
         (nth 0 r (if size r == 1%N then 0%N else j))
    | j <- iota 0 (if size r == 1%N then size fs else size r)].
Definition fits (m k : nat) : bool := [|| m == k, m == 1%N | k == 1%N].
Definition pdf_cols (fs : seq (R -> xnum)) (a : nd) : res (pdfval xnum) :=
  if ndim a == 2%N then
    if fits (size fs) (dim a 1) then Ok (P2 [seq spread fs r | r <- rows a]) else Err ValueError
  else
    if fits (size fs) (size (data a)) then Ok (P1 (spread fs (data a))) else Err ValueError.

(** [d.pdf(a)] *)
Definition spdf (d : sdist) (a : nd) : res (pdfval xnum) :=
  match d with
  | Uni loc scale => pdf_cols [seq updf p.1 p.2 | p <- zip loc scale] a
  | Nor loc scale => pdf_cols [seq npdf m scale | m <- loc] a
  | Other f => pdf_cols [:: f] a
  | Est k => v <- kde_pdf k a ;; Ok (P1 v)
  end.

Definition skde (y : nd) (bw : unit) (w : seq xnum) : res sdist := k <- kde y bw w ;; Ok (Est k).
Definition skde_pdf (d : sdist) (y : nd) : res (seq xnum) :=
  if d is Est k then kde_pdf k y else Err TypeError.
Definition norm01 : sdist := Nor [:: Fin 0] 1.

(** DensityProblem and BayesProblem with these distributions. *)
Definition sd_pdf (d : sdist) (kw : unit) (a : nd) := spdf d a.
Definition sd_mud := mud_point sd_pdf tt tt (@Uni R K) norm01 skde skde_pdf.
Definition sd_initial := set_initial sd_pdf tt (@Uni R K).
Definition sd_observed := set_observed sd_pdf tt norm01.
Definition sd_predicted := set_predicted sd_pdf skde skde_pdf.
Definition sb_map := map_point spdf (@Uni R K) ln.
(** ([logpdf] is not used.) *)
Definition sb_likelihood := set_likelihood spdf (fun _ _ => Err TypeError).

(** [np.mean] of a 1-D array (nan when empty). *)
Definition np_mean1 (s : seq R) : xnum :=
  if s is [::] then NaN else Fin ((\sum_(x <- s) x) / (size s)%:R).

(** simple.py:11-95 polynomial_1D_data.  [dsize]: the number of entries of [domain]; [draws]: the
    values init_dist.rvs draws; [z]: the standard normal draws.
    Simplification: the power is a natural number. *)
Definition polynomial_1D_data (p : nat) (num_samples : int) (dsize : nat) (draws : nat -> R)
    (mu sigma : R) (N : int) (z : nat -> R) : res (nd * nd * seq R) :=
  _ <- guard (dsize == 2%N) ValueError ;;
  n <- (if num_samples is Posz n then Ok n else Err ValueError) ;;
  let lam := Nd [:: n; 1%N] (mkseq draws n) in
  let q := Nd [:: n; 1%N] [seq x ^+ p | x <- mkseq draws n] in
  data <- (if N == 1 then Ok [:: mu] else
           if N is Posz m then Ok (mkseq (fun j => mu + sigma ^+ 2 * z j) m) else Err ValueError) ;;
  Ok (lam, q, data).

(** Run a method, keep the object when it returns. *)
Definition after S (m : S * res unit) : res S := _ <- m.2 ;; Ok m.1.

(** simple.py:98-126 identity_1D_density_prob.  [init]: None for the string "uniform", the
    density otherwise; [draws]: what init_dist.rvs draws (for "uniform": the draws from [0, 1)
    that are scaled; a negative scale raises ValueError).
    Simplification: [domain] is a flat list of numbers. *)
Definition identity_1D_density_prob (num_samples num_obs : int) (mu sigma : R)
    (weights : option nd) (init : option (R -> xnum)) (normalize : bool) (domain : seq R)
    (domint analytical_pred : bool) (draws z : nat -> R) : res dprob :=
  dd <- (match init with
         | Some f => Ok (Other f, draws)
         | None => _ <- guard (2 <= size domain)%N IndexError ;;
                   let loc := nth 0 domain 0 in let scale := nth 0 domain 1 - loc in
                   _ <- guard (0 <= scale) ValueError ;;
                   Ok (Uni [:: loc] [:: scale], fun j => loc + scale * draws j)
         end) ;;
  t <- polynomial_1D_data 1 num_samples 2 dd.2 mu sigma num_obs z ;;
  D <- density_init sdist trunc t.1.1 t.1.2 false (Some (nd1 domain)) domint weights normalize 0 ;;
  D <- after (sd_initial D (Some dd.1)) ;;
  D <- after (sd_observed D (Some (Nor [:: np_mean1 t.2] sigma))) ;;
  if analytical_pred then after (sd_predicted D (PA (Some dd.1) tt None tt)) else Ok D.

(** simple.py:129-148 identity_1D_bayes_prob *)
Definition identity_1D_bayes_prob (num_samples num_obs : int) (mu sigma : R)
    (domain : option (seq R)) (draws z : nat -> R) : res bprob :=
  t <- polynomial_1D_data 1 num_samples 2 draws mu sigma num_obs z ;;
  B <- bayes_init sdist trunc t.1.1 t.1.2 false (omap (@nd1 R) domain) ;;
  after (sb_likelihood B (Nor [seq Fin x | x <- t.2] sigma) false).

(** comparison.py:185-202: one pass of the loop of run_comparison_example, with the
    call of plot_param_space that overwrites the domain of the DensityProblem (comparison.py:97-99
    and base.py:492-493; the other plotting calls leave the problems as they are).  [u]: the draws from [0, 1) (the default init_dist of
    polynomial_1D_data, whatever the domain). *)
Definition comparison_pass (p : nat) (num_samples : int) (mu sigma : R) (domain : seq R)
    (domint : bool) (N : int) (u z : nat -> R) : res (dprob * bprob) :=
  t <- polynomial_1D_data p num_samples (size domain) u mu sigma N z ;;
  D <- density_init sdist trunc t.1.1 t.1.2 false (Some (nd1 domain)) domint None false 0 ;;
  D <- after (sd_observed D (Some (Nor [:: np_mean1 t.2] sigma))) ;;
  let e := sd_mud D in _ <- e.2 ;;
  B <- bayes_init sdist trunc t.1.1 t.1.2 false (Some (nd1 domain)) ;;
  B <- after (sb_likelihood B (Nor [seq Fin x | x <- t.2] sigma) false) ;;
  let f := sb_map B in _ <- f.2 ;;
  D <- after (plot_param_space sd_pdf tt tt (@Uni R K) norm01 skde skde_pdf trunc (fun _ _ => Ok tt)
                e.1 false (5%:R / 100%:R) true true false false) ;;
  Ok (D, f.1).

(** comparison.py:132-229 run_comparison_example: the list of results (the passes draw from the
    same generator one after the other: [draw i] are the draws of pass i).
    Simplification: what is drawn is not modelled here (see C40, C66 and PlotModel.v), and
    drawing does not raise. *)
Fixpoint run_comparison (p : nat) (num_samples : int) (mu sigma : R) (domain : seq R) (domint : bool)
    (Ns : seq int) (draw : nat -> (nat -> R) * (nat -> R)) : res (seq (dprob * bprob)) :=
  match Ns with
  | [::] => Ok [::]
  | N :: Ns' => r <- comparison_pass p num_samples mu sigma domain domint N (draw 0%N).1 (draw 0%N).2 ;;
                rs <- run_comparison p num_samples mu sigma domain domint Ns' (fun i => draw i.+1) ;;
                Ok (r :: rs)
  end.
End Simple.
