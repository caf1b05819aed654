(** Model of the examples built on SpatioTemporalProblem: examples/exp_decay.py,
    identity_1D_temporal_prob (examples/simple.py), load_poisson_prob (examples/poisson.py) and
    load_adcirc_prob (examples/adcirc.py). *)
Set Warnings "-notation-overridden,-ambiguous-paths".
From mathcomp Require Import all_ssreflect all_algebra.
From Coq Require Import String.
From Verif Require Import Py Nd Xnum UtilModel DensityModel UtilModel2 StModel SimpleModel.
Set Implicit Arguments. Unset Strict Implicit. Unset Printing Implicit Defensive.
Import Order.Theory GRing.Theory Num.Theory.
Local Open Scope ring_scope.

Section StEx.
Variable R : rcfType.
Notation nd := (nd R).
(** Oracles: the exponential function, rounding up. *)
Variable expf : R -> R.
Variable ceil : R -> int.

(** [np.arange(start, stop, 1 / freq)]: ceil((stop - start) / step) entries. *)
Definition np_arange (start stop freq : R) : res (seq R) :=
  if freq == 0 then Err ZeroDivisionError else
  Ok (mkseq (fun i => start + i%:R * (1 / freq))
        (if ceil ((stop - start) / (1 / freq)) is Posz n then n else 0%N)).

(** [u_0 * np.exp(-np.outer(ls, ts))] (exp_decay.py:22-23): one row per entry of [ls]. *)
Definition decay (u0 : R) (ls ts : seq R) : nd :=
  Nd [:: size ls; size ts] [seq u0 * expf (- (l * t)) | l <- ls, t <- ts].

(** exp_decay.py:12-38 exp_decay_1D.  [draws]: the draws from [0, 1) that are scaled to the
    domain.  Simplifications: [domain] is a flat list, [time_range] a pair, [lambda_true] a number. *)
Definition exp_decay_1D (u0 : R) (time_range : R * R) (domain : seq R) (num_samples : int)
    (lambda_true t_start freq std_dev : R) (draws : nat -> R) : res (st R) :=
  _ <- guard (2 <= size domain)%N IndexError ;;
  let loc := nth 0 domain 0 in let scale := nth 0 domain 1 - loc in
  s <- after (set_domain (st0 R) (nd1 domain)) ;;
  ts <- np_arange t_start time_range.2 freq ;;
  let s := with_times s (Some (nd1 ts)) in
  s <- after (set_dist s "u") ;;
  _ <- guard (0 <= scale) ValueError ;;
  n <- (if num_samples is Posz n then Ok n else Err ValueError) ;;
  s <- after (set_lam s (nd1 (mkseq (fun j => loc + scale * draws j) n))) ;;
  let ls := if s_lam s is Some l then data l else [::] in
  s <- after (set_data s (decay u0 ls ts)) ;;
  s <- after (set_tv s (Some (nd1 [seq u0 * expf (- (lambda_true * t)) | t <- ts]))) ;;
  Ok (with_sd s (Some std_dev)).

(** exp_decay.py:41-70 exp_decay_2D.  The call in line 67 leaves out an argument of u_t_lambda_2.
    [lams]: the samples drawn (num_samples rows).  Simplification: [domain] is a 2-D array. *)
Definition exp_decay_2D (time_range : R * R) (domain : nd) (num_samples : int)
    (lambda_true : seq R) (N : int) (t_start freq std_dev : R) (lams : nat -> nat -> R) : res (st R) :=
  let p := dim domain 0 in
  _ <- guard (0 < dim domain 1)%N ValueError ;;
  s <- after (set_domain (st0 R) domain) ;;
  ts <- np_arange t_start time_range.2 freq ;;
  let ts := take (slice_len (size ts) (Some N)) ts in
  let s := with_times s (Some (nd1 ts)) in
  s <- after (set_dist s "u") ;;
  n <- (if num_samples is Posz n then Ok n else Err ValueError) ;;
  s <- after (set_lam s (Nd [:: n; p] [seq lams i j | i <- iota 0 n, j <- iota 0 p])) ;;
  _ <- guard (2 <= p)%N IndexError ;;
  s <- after (set_data s (Nd [:: n; size ts] [seq lams i 0%N * expf (- (t * lams i 1%N)) | i <- iota 0 n, t <- ts])) ;;
  tv <- Err TypeError ;;
  s <- after (set_tv s (Some tv)) ;;
  Ok (with_sd s (Some std_dev)).

(** simple.py:151-194 identity_1D_temporal_prob: what comes after the data set has been loaded is
    [rest].  [domain]: None or an array; [times]: np.arange(num_obs). *)
Definition temporal_data (lam : nd) (data_ : seq R) (y_true noise : R) (domain : option nd) (num_obs : int) : dset R :=
  [:: ("lam", VArr lam); ("data", VArr (nd1 data_)); ("true_vals", VNum y_true);
      ("measurements", VNone R); ("std_dev", VNum noise); ("sample_dist", VStr R "uniform");
      ("domain", if domain is Some d then VArr d else VNone R); ("lam_ref", VNum y_true);
      ("times", VArr (nd1 (if num_obs is Posz n then mkseq (fun i => i%:R) n else [::])))]%string.
Definition identity_1D_temporal_prob T (num_samples num_obs : int) (y_true noise : R)
    (domain : option nd) (draws z : nat -> R) (rest : st R -> res T) : res T :=
  t <- polynomial_1D_data 1 num_samples 2 draws y_true noise num_obs z ;;
  s <- after (load (st0 R) (temporal_data t.1.1 t.2 y_true noise domain num_obs) (@NName R)) ;;
  rest s.

Variable G : Type.
Variable reseed : int -> res G.
Variable randn : nat -> G -> seq R * G.
Definition sd05 : R := 5%:R / 100%:R.

(** poisson.py:53-66: the names given to load. *)
Definition poisson_names (f : string) : nameval R :=
  if (f =? "measurements")%string then NVal (VNone R) else
  if (f =? "std_dev")%string then NVal (VNum sd05) else
  if (f =? "sample_dist")%string then NName R "uniform" else
  if (f =? "lam_ref")%string then NVal (VNone R) else
  if (f =? "times")%string then NVal (VArr (arr0 R)) else NName R f.
(** adcirc.py:34-47 *)
Definition adcirc_names (sensors : nd) (f : string) : nameval R :=
  if (f =? "measurements")%string then NVal (VNone R) else
  if (f =? "std_dev")%string then NVal (VNum sd05) else
  if (f =? "sample_dist")%string then NName R "uniform" else
  if (f =? "sensors")%string then NVal (VArr sensors) else NName R f.

(** poisson.py:26-70 load_poisson_prob, adcirc.py:23-50 load_adcirc_prob; [file]: the data set in
    the file (or the exception reading it raises). *)
Definition load_with (names : string -> nameval R) (file : res (dset R)) (seed : option int) (g : G)
  : G * res (dset R * st R) :=
  match file with
  | Err e => (g, Err e)
  | Ok ds =>
      match load (st0 R) ds names with
      | (_, Err e) => (g, Err e)
      | (s, Ok _) => let: ((s', g'), r) := measurements_from_reference reseed randn s g None (Some sd05) seed in
                     (g', _ <- r ;; Ok (ds, s'))
      end
  end.
Definition load_poisson_prob (file : res (dset R)) (std_dev : R) (seed : option int) (g : G) :=
  load_with poisson_names file seed g.
Definition load_adcirc_prob (file : res (dset R)) (std_dev : R) (seed : option int) (sensors : nd) (g : G) :=
  load_with (adcirc_names sensors) file seed g.

(** fenics.py:146-202 run_fenics: the dictionary it returns (and writes).  [rand]: numpy's
    generator, draws from [0, 1); [solve lam], [solve_gamma gamma]: the solution fenics_poisson_solve
    computes, as a function of a point of the plane.
    Simplifications: FEniCS is available and does not raise; the coordinates and values for
    plotting stored under "u" are the argument [u]. *)
Variable rand : nat -> G -> seq R * G.
Variable solve : seq R -> R -> R -> R.
Variable solve_gamma : R -> R -> R -> R.
(** [np.random.uniform(low, high, size=(n, len(low)))] from the draws [z]. *)
Definition uniform_rows (low high : seq R) (n : nat) (z : seq R) : seq (seq R) :=
  mkseq (fun i => mkseq (fun j => nth 0 low j + (nth 0 high j - nth 0 low j) * nth 0 z (i * size low + j)) (size low)) n.
Definition run_fenics (num_samples num_sensors : int) (mins maxs : seq R) (low high : R * R) (gamma : R)
    (seed : option int) (u : pyv R) (g : G) : G * res (dset R) :=
  match (if seed is Some q then reseed q else Ok g) with
  | Err e => (g, Err e)
  | Ok g =>
    if size mins != size maxs then (g, Err ValueError) else
    if num_sensors is Posz k then
      let: (z, g) := rand (k * 2) g in
      let sensors := uniform_rows [:: low.1; low.2] [:: high.1; high.2] k z in
      if num_samples is Posz n then
        let: (z, g) := rand (n * size mins) g in
        let lams := uniform_rows mins maxs n z in
        (g, Ok [:: ("lam", VArr (Nd [:: n; size mins] (flatten lams)));
                   ("data", VArr (Nd [:: n; k] [seq solve l (nth 0 s 0) (nth 0 s 1) | l <- lams, s <- sensors]));
                   ("true_vals", VArr (Nd [:: k; 1%N] [seq solve_gamma gamma (nth 0 s 0) (nth 0 s 1) | s <- sensors]));
                   ("domain", VArr (Nd [:: size mins; 2%N] (flatten [seq [:: p.1; p.2] | p <- zip mins maxs])));
                   ("sensors", VArr (Nd [:: k; 2%N] (flatten sensors)));
                   ("u", u)]%string)
      else (g, Err ValueError)
    else (g, Err ValueError)
  end.
End StEx.
