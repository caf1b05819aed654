(** Model of the iterative (Kaczmarz-like) solvers: funs.performEpoch,
    funs.iterate, funs.iter_lin_solve and base.IterativeLinearProblem. *)
Set Warnings "-notation-overridden,-ambiguous-paths".
From mathcomp Require Import all_ssreflect all_algebra.
From Coq Require Import String.
From Verif Require Import Py Nd Spec LinAlg Dmx LgpModel.
Set Implicit Arguments. Unset Strict Implicit. Unset Printing Implicit Defensive.
Import Order.Theory GRing.Theory Num.Theory.
Local Open Scope ring_scope.

(** numpy indexing [a[i]] along the first axis (negative [i] wraps). *)
Definition nd_item V (a : nd V) (i : int) : res (nd V) :=
  match shape a with
  | [::] => Err IndexError
  | d :: sh => k <- py_index d i ;;
      Ok (Nd sh (take (prodn sh) (drop (k * prodn sh) (data a))))
  end.

Section Iter.
Variable R : realFieldType.
Notation nd := (nd R).
Notation dmx := (dmx R).

(** The array a [mud_sol] result is: flat, or a column. *)
Definition nd_of_sol (s : solval R) : nd :=
  match s with
  | SFlat v => nd1 v
  | SCol m => Nd [:: dr m; dc m] (dravel m)
  end.

(** The loop of performEpoch, funs.py:196-202: the points appended after
    [mean].  [A] is two-dimensional. *)
Fixpoint epoch_steps (A b y : nd) (cov : option dmx) (idx : seq int) (mean : nd)
  : res (seq nd) :=
  match idx with
  | [::] => Ok [::]
  | i :: idx' =>
      Ai <- nd_item A i ;;
      bi <- nd_item b i ;;
      yi <- nd_item y i ;;
      s <- mud_sol (Nd [:: 1%N; size (data Ai)] (data Ai)) (Some bi) (Some yi)
             (Some mean) cov None ;;
      let x := nd_of_sol s in
      rest <- epoch_steps A b y cov idx' x ;;
      Ok (x :: rest)
  end.

(** funs.py:188-203 performEpoch; [data_cov] is accepted and not used. *)
Definition performEpoch (A b y initial_mean : nd) (initial_cov : option dmx)
    (data_cov : option dmx) (idx : option (seq int)) : res (seq nd) :=
  let idx := if idx is Some s then s else [seq Posz k | k <- iota 0 (dim A 0)] in
  rest <- epoch_steps A b y initial_cov idx initial_mean ;;
  Ok (initial_mean :: rest).

(** funs.py:206-211 iterate.  [more] is the number of epochs after the first. *)
Fixpoint more_epochs (A b y : nd) cov dcov idx (more : nat) (chain : seq nd)
  : res (seq nd) :=
  match more with
  | 0%N => Ok chain
  | k.+1 => c <- performEpoch A b y (last (nd1 [::]) chain) cov dcov idx ;;
            more_epochs A b y cov dcov idx k (chain ++ c)
  end.
Definition iterate (A b y initial_mean : nd) (cov dcov : option dmx)
    (num_epochs : int) (idx : option (seq int)) : res (seq nd) :=
  chain <- performEpoch A b y initial_mean cov dcov idx ;;
  (* range(1, num_epochs) *)
  more_epochs A b y cov dcov idx
    (if num_epochs is Posz e then e.-1 else 0%N) chain.

(** ** base.IterativeLinearProblem (base.py:1423-1488) *)
(** Instance attributes.  Chain points are columns.  [y] is 1-D when defaulted
    (base.py:1436) and a column otherwise; only its length matters here. *)
Record ilp := Ilp {
  iA : dmx; ib : seq R; iy : seq R; imu : dmx; icov : dmx; idcov : dmx;
  iorder : seq int;
  ichains : seq (seq dmx); ierrors : seq R }.

(** base.py:1424-1444 __init__ (no validation at all). *)
Definition ilp_init (A : dmx) (b y : option (seq R)) (mu_i : option (seq R))
    (cov data_cov : option dmx) (idx_order : option (seq int)) : ilp :=
  Ilp A (odflt (nseq (dr A) 0) b) (odflt (nseq (dr A) 0) y)
    (if mu_i is Some m then dcol m else dzeros (dc A) 1)
    (odflt (deye (dc A)) cov) (odflt (deye (dr A)) data_cov)
    (odflt [seq Posz k | k <- iota 0 (dr A)] idx_order) [::] [::].

(** base.py:1465-1478: one pass over [idx_order].  The sub-problem is built with
    keyword arguments [mean=], [cov=], [data_cov=], which
    LinearGaussianProblem.__init__ does not have: after the three subscripts have
    been evaluated the call raises TypeError. *)
Definition ilp_epoch (p : ilp) (order : seq int) (sols : seq dmx) : res (seq dmx) :=
  match order with
  | [::] => Ok sols
  | i :: _ =>
      _ <- py_index (dr (iA p)) i ;;
      _ <- py_index (size (ib p)) i ;;
      _ <- py_index (size (iy p)) i ;;
      Err TypeError
  end.

Definition set_chains (p : ilp) c :=
  Ilp (iA p) (ib p) (iy p) (imu p) (icov p) (idcov p) (iorder p) c (ierrors p).
Definition set_errors (p : ilp) e :=
  Ilp (iA p) (ib p) (iy p) (imu p) (icov p) (idcov p) (iorder p) (ichains p) e.

Fixpoint ilp_epochs (p : ilp) (k : nat) (sols : seq dmx) : ilp * res unit :=
  match k with
  | 0%N => (p, Ok tt)
  | k'.+1 =>
      match ilp_epoch p (iorder p) [:: last (imu p) sols] with
      | Err e => (p, Err e)
      | Ok sols' => ilp_epochs (set_chains p (rcons (ichains p) sols')) k' sols'
      end
  end.

(** base.py:1449-1480 solve; [self.solution_chains[-1][-1]] raises IndexError when
    there is no chain. *)
Definition ilp_solve (p : ilp) (num_epochs : int) : ilp * res dmx :=
  let m_init := if ichains p is [::] then imu p
                else last (imu p) (last [::] (ichains p)) in
  let r := ilp_epochs p (if num_epochs is Posz e then e else 0%N) [:: m_init] in
  (r.1, _ <- r.2 ;;
        if ichains r.1 is [::] then Err IndexError
        else if last [::] (ichains r.1) is [::] then Err IndexError
        else Ok (last (imu p) (last [::] (ichains r.1)))).

(** funs.py:159-185 iter_lin_solve: passes [mean_i=], [cov_i=], [cov_o=],
    [alpha=] to a constructor that has none of them. *)
Definition iter_lin_solve (A : dmx) (b y mean : option (seq R)) (cov dcov : option dmx)
    (method : string) (num_epochs : int) (idx : option (seq int)) : res dmx :=
  Err TypeError.

End Iter.

Section IlpErrors.
Variable R : rcfType.
(** [np.linalg.norm] of a column. *)
Definition norm2 (a : dmx R) : R :=
  Num.sqrt (\sum_(i < dr a) \sum_(j < dc a) dget a i j ^+ 2).

(** base.py:1482-1490 get_errors.  [np.concatenate] of the chain tails: ValueError
    without chains, or when an empty tail (a 1-D empty array) meets a non-empty one.
    The cached list is returned whenever its length is right. *)
Definition ilp_get_errors (p : ilp R) (ref : dmx R) : ilp R * res (seq R) :=
  let tails := [seq behead c | c <- ichains p] in
  let sols := flatten tails in
  if ichains p is [::] then (p, Err ValueError) else
  if has (fun t => size t == 0%N) tails && has (fun t => size t != 0%N) tails
  then (p, Err ValueError) else
  if size sols != size (ierrors p) then
    match rmapM (fun s => d <- dsub s ref ;; Ok (norm2 d)) sols with
    | Err e => (p, Err e)
    | Ok es => (set_errors p es, Ok es)
    end
  else (p, Ok (ierrors p)).
End IlpErrors.
