(** Model of base.BayesProblem (base.py:713-974). *)
Set Warnings "-notation-overridden,-ambiguous-paths".
From mathcomp Require Import all_ssreflect all_algebra.
From Verif Require Import Py Nd Xnum UtilModel DensityModel.
Set Implicit Arguments. Unset Strict Implicit. Unset Printing Implicit Defensive.
Import Order.Theory GRing.Theory Num.Theory.
Local Open Scope ring_scope.

Section Bayes.
Variable R : rcfType.
Notation xnum := (xnum R).
Notation nd := (nd R).
(** Oracles: [D] distribution objects; [pdf d a] = [d.pdf(a)], [logpdf d a] = [d.logpdf(a)];
    [uniform loc scale] = [dist.uniform(loc, scale)]; [ln] the logarithm of a positive
    number. *)
Variable D : Type.
Variables pdf logpdf : D -> nd -> res (pdfval xnum).
Variable uniform : seq R -> seq R -> D.
Variable ln : R -> R.
Variable trunc : R -> R.

(** [np.log] of one number. *)
Definition xlog (x : xnum) : xnum :=
  match x with
  | Fin a => if a == 0 then NInf else if 0 < a then Fin (ln a) else NaN
  | PInf => PInf
  | _ => NaN
  end.

(** [a.sum(axis=1)] *)
Definition sum_axis1 (a : pdfval xnum) : res (seq xnum) :=
  match a with P1 _ => Err ValueError | P2 s => Ok [seq xsum r | r <- s] end.

(** Instance attributes, base.py:755-770 ([_log] exists from the first set_likelihood on and
    is read only when [_ll] is there).
    Simplification: arrays of at most two dimensions. *)
Record bprob := BP {
  bX : nd; by_ : nd; bdom : nd;
  b_ps : option (seq xnum); b_pr : option (seq xnum); b_ll : option (seq xnum);
  b_log : bool; b_ll_dist : option D; b_pr_dist : option D }.

(** base.py:748-770 __init__; [xint]: X given with an integer dtype. *)
Definition bayes_init (X y : nd) (xint : bool) (domain : option nd) : res bprob :=
  X2 <- set_shape [:: Some 1%N; None] X ;;
  y2 <- set_shape [:: Some 1%N; None] y ;;
  dm <- (match domain with
         | Some d => d2 <- set_shape [:: Some 1%N; None] d ;;
                     _ <- guard (dim d2 0 == dim X2 1) AssertionError ;; Ok d2
         | None => fit_domain (cast_of trunc xint) (Some X2) None (10%:R^-1)
         end) ;;
  Ok (BP X2 y2 dm None None None false None None).

(** base.py:788-802 set_likelihood: the distribution and the mode are stored before the
    values are computed. *)
Definition lik_values (d : D) (lg : bool) (y : nd) : res (seq xnum) :=
  if lg then a <- logpdf d y ;; sum_axis1 a else a <- pdf d y ;; prod_axis1 a.
Definition set_likelihood (s : bprob) (d : D) (lg : bool) : bprob * res unit :=
  match lik_values d lg (by_ s) with
  | Err e => (BP (bX s) (by_ s) (bdom s) (b_ps s) (b_pr s) (b_ll s) lg (Some d) (b_pr_dist s),
              Err e)
  | Ok v => (BP (bX s) (by_ s) (bdom s) None (b_pr s) (Some v) lg (Some d) (b_pr_dist s), Ok tt)
  end.

(** base.py:806-809: the uniform distribution over the domain (ValueError: no columns). *)
Definition default_prior (dom : nd) : res D :=
  if dim dom 1 == 0%N then Err ValueError else
  let mn := [seq np_min r | r <- rows dom] in
  let mx := [seq np_max r | r <- rows dom] in
  Ok (uniform mn [seq p.1 - p.2 | p <- zip mx mn]).

(** base.py:804-814 set_prior: the distribution is stored before its values are computed. *)
Definition set_prior (s : bprob) (d : option D) : bprob * res unit :=
  match (if d is Some d then Ok d else default_prior (bdom s)) with
  | Err e => (s, Err e)
  | Ok d =>
      match (a <- pdf d (bX s) ;; prod_axis1 a) with
      | Err e => (BP (bX s) (by_ s) (bdom s) (b_ps s) (b_pr s) (b_ll s) (b_log s) (b_ll_dist s)
                     (Some d), Err e)
      | Ok v => (BP (bX s) (by_ s) (bdom s) None (Some v) (b_ll s) (b_log s) (b_ll_dist s)
                    (Some d), Ok tt)
      end
  end.

(** base.py:822-825 *)
Definition combine (lg : bool) (pr ll : seq xnum) : res (seq xnum) :=
  if lg then xvbop (@xadd R) [seq xlog x | x <- pr] ll else xvbop (@xmul R) pr ll.

Definition xzero (x : xnum) : bool := if x is Fin a then a == 0 else false.

(** base.py:816-830 fit ([set_likelihood()] lacks its argument: TypeError). *)
Definition bfit (s : bprob) : bprob * res unit :=
  sbind (if b_pr s is None then set_prior s None else (s, Ok tt)) (fun s _ =>
  match b_ll s with
  | None => (s, Err TypeError)
  | Some ll =>
      match (ps <- combine (b_log s) (odflt [::] (b_pr s)) ll ;;
             _ <- guard (size ps == dim (bX s) 0) AssertionError ;;
             _ <- guard (~~ xzero (xsum ps)) ValueError ;; Ok ps) with
      | Err e => (s, Err e)
      | Ok ps => (BP (bX s) (by_ s) (bdom s) (Some ps) (b_pr s) (b_ll s) (b_log s) (b_ll_dist s)
                     (b_pr_dist s), Ok tt)
      end
  end).

(** base.py:832-836 map_point; base.py:838-839 estimate is the same. *)
Definition map_point (s : bprob) : bprob * res (seq R) :=
  sbind (if b_ps s is None then bfit s else (s, Ok tt)) (fun s _ =>
  lift s (m <- argmax (odflt [::] (b_ps s)) ;; row_at (bX s) m)).

(** base.py:842-899 plot_param_space; the flags: the option dictionaries are not None;
    [draw k s]: what the k-th plotting step does (an oracle that may raise but not change the
    object). *)
Definition bplot_param (draw : nat -> bprob -> res unit) (s : bprob) (pr_opts ps_opts map_opts : bool)
  : bprob * res unit :=
  sbind (lift s (if pr_opts then draw 0%N s else Ok tt)) (fun s _ =>
  sbind (if ps_opts then sbind (map_point s) (fun s _ => lift s (draw 1%N s)) else (s, Ok tt))
    (fun s _ =>
  sbind (if map_opts then sbind (map_point s) (fun s _ => lift s (draw 2%N s)) else (s, Ok tt))
    (fun s _ => lift s (draw 3%N s)))).

(** base.py:904-974 plot_obs_space *)
Definition bplot_obs (draw : nat -> bprob -> res unit) (s : bprob) (ll_opts pf_opts : bool)
  : bprob * res unit :=
  lift s (_ <- draw 4%N s ;;
          _ <- (if ll_opts then _ <- guard (isSome (b_ll s)) ValueError ;; draw 5%N s else Ok tt) ;;
          if pf_opts then draw 6%N s else Ok tt).

(** Calls a user can make. *)
Inductive bop :=
  | BLik of D & bool
  | BPrior of option D
  | BFit | BMap
  | BPlot of bool & bool & bool
  | BPlotObs of bool & bool.

Definition bvoid A (m : bprob * res A) : bprob * res unit := (m.1, rmap (fun _ => tt) m.2).
Definition brun1 draw (s : bprob) (o : bop) : bprob * res unit :=
  match o with
  | BLik d lg => set_likelihood s d lg
  | BPrior d => set_prior s d
  | BFit => bfit s
  | BMap => bvoid (map_point s)
  | BPlot a b c => bplot_param draw s a b c
  | BPlotObs a b => bplot_obs draw s a b
  end.
(** A history: exceptions are caught by the caller, who goes on. *)
Definition brun draw (s : bprob) (h : seq bop) : bprob :=
  foldl (fun s o => (brun1 draw s o).1) s h.
(** Which calls of a history returned. *)
Fixpoint returns draw (s : bprob) (h : seq bop) : seq bool :=
  match h with
  | [::] => [::]
  | o :: h' => is_ok (brun1 draw s o).2 :: returns draw (brun1 draw s o).1 h'
  end.
End Bayes.
