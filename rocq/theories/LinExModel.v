(** Model of the problem generators and the high-dimensional study of
    examples/linear.py (lines 23-262, 599-711 and 713-792).  Drawing is not modelled. *)
Set Warnings "-notation-overridden,-ambiguous-paths".
From mathcomp Require Import all_ssreflect all_algebra.
From Coq Require Import String.
From Verif Require Import Py Nd Spec LinAlg Dmx LgpModel WmeModel UtilModel2.
Set Implicit Arguments. Unset Strict Implicit. Unset Printing Implicit Defensive.
Import Order.Theory GRing.Theory Num.Theory.
Local Open Scope ring_scope.

Section LinEx.
Variable R : rcfType.
Notation nd := (nd R).
Notation dmx := (dmx R).
(** numpy's global generator: [reseed] = np.random.seed (ValueError for a bad seed),
    [randn]/[rand] = the next n standard normal / uniform numbers. *)
Variable G : Type.
Variable reseed : int -> res G.
Variables randn rand : nat -> G -> seq R * G.

(** [s.reshape(r, c)] of a flat array of draws. *)
Definition dmat (r c : nat) (s : seq R) : dmx := dbuild r c (fun i j => nth 0 s (i * c + j)).

(** np.diag of a 1-D array with n entries. *)
Definition ddiag (n : nat) (s : seq R) : dmx :=
  dbuild n n (fun i j => if i == j then nth 0 s i else 0).

(** linear.py:122 [np.sort(np.random.rand(n))[::-1] + 0.5]. *)
Definition cov_diag (u : seq R) : seq R := [seq x + 2%:R^-1 | x <- rev (sort <=%R u)].

(** [if seed is not None: np.random.seed(seed)]. *)
Definition seeded (seed : option int) (g : G) : res G :=
  if seed is Some s then reseed s else Ok g.

(** linear.py:98-126 random_linear_problem; the generator is left where it was when seeding fails. *)
Definition random_linear_problem (di do_ : nat) (mean_i : option nd) (cov_i : option dmx)
    (seed : option int) (g : G) : G * res (dmx * lgp R) :=
  match seeded seed g with
  | Err e => (g, Err e)
  | Ok g =>
    let: (sA, g) := randn (do_ * di) g in
    let A := dmat do_ di sA in
    let: (sb, g) := randn do_ g in
    let b := dmat do_ 1 sb in
    let: (sl, g) := randn di g in
    let lam := dmat di 1 sl in
    match (Al <- dmul A lam ;; dadd Al b) with
    | Err e => (g, Err e)
    | Ok y =>
      let mean := odflt (nd_of_dmx (dzeros di 1)) mean_i in
      let: (cov, g) := match cov_i with
                       | Some c => (c, g)
                       | None => let: (u, g) := rand di g in (ddiag di (cov_diag u), g)
                       end in
      (g, p <- lgp_init (nd_of_dmx A) (Some (nd_of_dmx b)) (Some (nd_of_dmx y)) (Some mean)
                 (Some cov) None None ;;
          Ok (lam, p))
    end
  end.

(** A standard deviation argument: a Python number (or np.float64), an array, or a list/tuple
    (which has no [ravel]).  A np.int64 is an [SArr] with no dimensions. *)
Inductive stdv := SVal of R | SArr of nd | SList of seq R.

(** linear.py:78-83, 152-157: the array of standard deviations used for [n] data. *)
Definition std_array (s : stdv) (n : nat) : res nd :=
  match s with
  | SVal x => Ok (nd1 (nseq n x))
  | SArr a => _ <- guard (size (data a) == n) AssertionError ;; Ok a
  | SList _ => Err AttributeError
  end.

(** [np.diag(a)]: matrix of a 1-D array, main diagonal of a 2-D one (a 1-D array, here a row, as
    [@] treats it), ValueError otherwise. *)
Definition np_diag (a : nd) : res dmx :=
  match Nd.shape a with
  | [:: n] => Ok (ddiag n (data a))
  | [:: k; l] => Ok (drow [seq nth 0 (data a) (i * l + i) | i <- iota 0 (minn k l)])
  | _ => Err ValueError
  end.

(** linear.py:85-90, 159-164: reference data plus [np.diag(std) @ np.random.randn(n, 1)].
    A single-row prediction is a scalar; as a 1x1 array it broadcasts the same way.
    The product of a 1-D array with an (n, 1) array is a 1-D array of length 1, here 1x1. *)
Definition noisy (M : dmx) (ref : nd) (s : nd) (n : nat) (g : G) : G * res (seq R) :=
  match (r <- dmul M (dcol (data ref)) ;; D <- np_diag s ;; Ok (r, D)) with
  | Err e => (g, Err e)
  | Ok (r, D) =>
      let: (z, g) := randn n g in
      (g, noise <- dmul D (dmat n 1 z) ;; d <- dadd r noise ;; Ok (dravel d))
  end.

(** linear.py:129-165 noisy_linear_data.  [M] is a 2-D array; [reference_point] an array or a
    list with at least one dimension (a number: TypeError); [num_data] is not negative. *)
Definition noisy_linear_data (M : dmx) (ref : nd) (std : stdv) (num_data : option nat) (g : G)
  : G * res (seq R) :=
  let n := odflt (dr M) num_data in
  match (_ <- guard (ndim ref != 0%N) TypeError ;;
         _ <- guard (dc M == dim ref 0) AssertionError ;;
         _ <- guard ((dr M == 1%N) || (dr M == n)) AssertionError ;;
         std_array std n) with
  | Err e => (g, Err e)
  | Ok s => noisy M ref s n g
  end.

(** The [std_dev] argument of random_linear_wme_problem: a number (true: a Python int or bool;
    numpy then makes its product an np.int64), or a sequence with one entry per QoI. *)
Inductive wstd := WNum of bool & R | WSeq of seq stdv.
(** The [num_observations] argument: an integer or a list of integers. *)
Inductive wobs := ONum of nat | OSeq of seq nat.

(** linear.py:54-57 and 59-62 *)
Definition wme_std (s : wstd) (q : nat) : res (seq stdv) :=
  match s with
  | WNum true x => Ok [:: SArr (Nd [::] [:: x * q%:R])]
  | WNum false x => Ok [:: SVal (x * q%:R)]
  | WSeq l => _ <- guard (size l == q) AssertionError ;; Ok l
  end.
Definition wme_obs (o : wobs) (q : nat) : res (seq nat) :=
  match o with
  | ONum n => Ok (nseq q n)
  | OSeq l => _ <- guard (size l == q) AssertionError ;; Ok l
  end.

(** linear.py:69-93: the loop, one pass per QoI. *)
Fixpoint wme_loop (q d : nat) (normal repeated : bool) (ref : nd) (l : seq (nat * stdv)) (g : G)
  : G * res (seq (dmx * seq R)) :=
  match l with
  | [::] => (g, Ok [::])
  | (n, s) :: l' =>
      let: (sm, g) := (if normal then randn else rand) (q * d)%N g in
      let M := if repeated then drows 1 (dmat q d sm) else dmat q d sm in
      match std_array s n with
      | Err e => (g, Err e)
      | Ok s =>
        match noisy M ref s n g with
        | (g, Err e) => (g, Err e)
        | (g, Ok y) =>
          match wme_loop q d normal repeated ref l' g with
          | (g, Err e) => (g, Err e)
          | (g, Ok r) => (g, Ok ((M, y) :: r))
          end
        end
      end
  end.

(** linear.py:23-95 random_linear_wme_problem: operators, data and the standard deviations.
    The reference point has at least one dimension. *)
Definition random_linear_wme_problem (ref : nd) (std_dev : wstd) (q : nat) (obs : wobs)
    (dist : string) (repeated : bool) (g : G)
  : G * res (seq dmx * seq (seq R) * seq stdv) :=
  match (s <- wme_std std_dev q ;; o <- wme_obs obs q ;;
         _ <- guard (size s == size o) AssertionError ;;
         _ <- guard (ndim ref != 0%N) TypeError ;; Ok (s, o)) with
  | Err e => (g, Err e)
  | Ok (s, o) =>
    let: (g, r) := wme_loop q (dim ref 0) (String.eqb dist "normal") repeated ref (zip o s) g in
    (g, l <- r ;; Ok ([seq x.1 | x <- l], [seq x.2 | x <- l], s))
  end.

(** ** The rotation map *)
(** np.sin, np.cos, np.pi; util.std_from_equipment at its default probability (a finite number). *)
Variables (sin cos : R -> R) (pi : R) (std_eq : R -> R).

(** linear.py:168-189 rotation_map.  [b] and [ref_param] are 2-D arrays.  Whatever the seed, the
    generator is restarted with 24. *)
Definition rotation_map (qnum : int) (tol : R) (b ref_param : option dmx) (seed : option int)
    (g : G) : G * res (dmx * dmx * dmx * dmx * dmx * dmx) :=
  match seeded (if seed is Some _ then Some (24 : int) else None) g with
  | Err e => (g, Err e)
  | Ok g =>
    match linspace 0 pi qnum with
    | Err e => (g, Err e)
    | Ok vec =>
      let N := size vec in
      let A := dbuild N 2 (fun i j => if j == 0%N then sin (nth 0 vec i) else cos (nth 0 vec i)) in
      let b := odflt (dzeros N 1) b in
      let ref := odflt (dbuild 2 1 (fun _ _ => 2%:R^-1)) ref_param in
      match (Ar <- dmul A ref ;; dadd Ar b) with
      | Err e => (g, Err e)
      | Ok y =>
          let: (z, g) := randn 2 g in
          (g, Ok (A, b, y, dmat 2 1 z, dscale (std_eq tol) (deye 2), ref))
      end
    end
  end.

(** Python's binding of keyword arguments to parameter names. *)
Definition bind_keywords (params kws : seq string) : res unit :=
  guard (all (fun k => has (String.eqb k) params) kws) TypeError.

(** base.py:1424-1426: the parameters of IterativeLinearProblem. *)
Definition iter_params : seq string :=
  [:: "A"; "b"; "y"; "mu_i"; "cov"; "data_cov"; "idx_order"]%string.

(** linear.py:192-262 rotation_map_trials, up to the construction of the first problem at
    247-249 (the only thing that follows it in a trial is code it never reaches).
    [draw m n g]: the generator after the draws of one trial (220-244). *)
Definition rotation_map_trials (draw : string -> nat -> G -> G) (numQoI : nat) (method : string)
    (num_trials budget : nat) (seed : option int) (g : G) : G * res unit :=
  match rotation_map (Posz numQoI) (10%:R^-1) None None seed g with
  | (g, Err e) => (g, Err e)
  | (g, Ok _) =>
    if numQoI == 0%N then (g, Err ZeroDivisionError) else
    if num_trials == 0%N then (g, Ok tt) else
    (draw method numQoI g,
     bind_keywords iter_params [:: "A"; "b"; "y"; "initial_mean"; "cov"; "idx_order"]%string)
  end.

(** ** The high-dimensional study *)
(** np.linalg.svd with full matrices, an oracle. *)
Variable svd : forall m n, 'M[R]_(m, n) -> svd_out R m n.

(** np.linalg.norm of a column. *)
Definition dnorm (a : dmx) : R := Num.sqrt (\sum_i \sum_j dval a i j ^+ 2).

(** linear.py:757-760 [np.linalg.norm(x - lam_ref) / c].
    Simplification: for lam_ref = 0 (numpy: NaN or inf) the model gives 0. *)
Definition rel_errs (lam : dmx) (xs : seq dmx) : res (seq R) :=
  rmapM (fun x => d <- dsub x lam ;; Ok (dnorm d / dnorm lam)) xs.

Definition set_alpha (p : lgp R) (a : R) := Lgp (lA p) (lb p) (ly p) (lmean p) (lcovi p)
  (lcovo p) a (l_mud p) (l_mud_alt p) (l_up_cov p) (l_map p) (l_cov_p p) (l_ls p).

(** The arrays of the tuple [solve(method="all")] returns. *)
Definition tuple_of (v : pyval R) : res (seq dmx) :=
  match v with VTup s => Ok s | _ => Err TypeError end.

(** linear.py:769-789: the inner loop over output dimensions; returns d_errs and r_errs. *)
Fixpoint dims_loop (lam : dmx) (ranks : seq dmx) (al : R) (dims : seq nat) (p : lgp R)
  : lgp R * res (seq (seq R * seq R)) :=
  match dims with
  | [::] => (p, Ok [::])
  | dim :: dims' =>
      let: (p, r) := solve p "all" (Some (Posz dim)) in
      match (v <- r ;; dim_solutions <- tuple_of v ;;
             k <- py_index (size ranks) (Posz dim - 1) ;;
             let Ak := nth (dzeros 0 0) ranks k in
             Al <- dmul Ak lam ;;
             y_rank <- dadd Al (lb p) ;;
             rp <- lgp_init (nd_of_dmx Ak) (Some (nd_of_dmx (lb p))) (Some (nd_of_dmx y_rank))
                     (Some (nd_of_dmx (lmean p))) (Some (lcovi p)) None (Some al) ;;
             w <- (solve rp "all" None).2 ;; rank_solutions <- tuple_of w ;;
             d <- rel_errs lam dim_solutions ;; e <- rel_errs lam rank_solutions ;; Ok (d, e)) with
      | Err e => (p, Err e)
      | Ok de =>
          let: (p, r) := dims_loop lam ranks al dims' p in
          (p, l <- r ;; Ok (de :: l))
      end
  end.

(** linear.py:764-792: the loop over alpha. *)
Fixpoint alpha_loop (lam : dmx) (ranks : seq dmx) (n : nat) (als : seq R) (p : lgp R)
  : res (seq (seq (seq R)) * seq (seq (seq R))) :=
  match als with
  | [::] => Ok ([::], [::])
  | al :: als' =>
      let: (p, r) := dims_loop lam ranks al (iota 1 n) (set_alpha p al) in
      l <- r ;; rest <- alpha_loop lam ranks n als' p ;;
      Ok ([seq x.1 | x <- l] :: rest.1, [seq x.2 | x <- l] :: rest.2)
  end.

(** linear.py:713-875 run_high_dim_linear: dim_errs and rank_errs (the plots: LinFigModel). *)
Definition run_high_dim_linear (di do_ : nat) (seed : option int) (g : G)
  : G * res (seq (seq (seq R)) * seq (seq (seq R))) :=
  match random_linear_problem di do_ None None seed g with
  | (g, Err e) => (g, Err e)
  | (g, Ok (lam, p)) =>
    (g, ranks <- rank_decomposition (svd (dval (lA p))) ;;
        alpha_loop lam [seq Dmx k | k <- ranks] do_ [:: 1; 10%:R^-1; 1000%:R^-1] p)
  end.

(** ** The spectra of updated covariances *)
(** linear.py:669-670: the data of each quantity, cut to [N] observations, plus the noise drawn
    at 665 (an array with [mx] columns). *)
Definition cut_data (q mx N : nat) (ys : seq (seq R)) (sigma : R) (z : seq R) : seq (seq R) :=
  mkseq (fun k => mkseq (fun j => nth 0 (nth [::] ys k) j + nth 0 z (k * mx + j) * sigma) N) q.

(** linear.py:666-676: the loop over the numbers of observations; the problems and their updated
    covariances.  The singular values taken at 677 and the plot: LinFigModel. *)
Definition wme_cov_loop (q mx : nat) (ops : seq dmx) (ys : seq (seq R)) (sigma : R) (z : seq R)
    (cov : dmx) (Ns : seq nat) : res (seq (lgp R * dmx)) :=
  rmapM (fun N => p <- lwme_init ops (cut_data q mx N ys sigma z) (LNum sigma) None None (Some cov)
                         None None ;;
                  U <- lgp_updated_cov p None None None ;; Ok (p, U)) Ns.

(** linear.py:599-711 run_wme_covariance: the last problem, and the updated covariances whose
    singular values are drawn.  [Ns]: natural numbers ([max([])]: ValueError).  With no output
    numpy cannot add the noise or stack the rows: ValueError. *)
Definition run_wme_covariance (di do_ : nat) (sigma : R) (Ns : seq nat) (seed : option int) (g : G)
  : G * res (lgp R * seq dmx) :=
  match seeded seed g with
  | Err e => (g, Err e)
  | Ok g =>
    let: (u, g) := rand di g in
    let: (sl, g) := randn di g in
    if Ns is N0 :: _ then
      let mx := foldr maxn 0%N Ns in
      match random_linear_wme_problem (nd_of_dmx (dmat di 1 sl)) (WSeq (nseq do_ (SVal 0))) do_
              (OSeq (nseq do_ mx)) "norm" true g with
      | (g, Err e) => (g, Err e)
      | (g, Ok (ops, ys, _)) =>
          let: (z, g) := randn (do_ * mx)%N g in
          if do_ == 0%N then (g, Err ValueError) else
          (g, l <- wme_cov_loop do_ mx ops ys sigma z (ddiag di (cov_diag u)) Ns ;;
              Ok (last (Lgp (dzeros 0 0) (dzeros 0 0) (dzeros 0 0) (dzeros 0 0) (dzeros 0 0)
                          (dzeros 0 0) 0 None None None None None None) [seq x.1 | x <- l],
                  [seq x.2 | x <- l]))
      end
    else (g, Err ValueError)
  end.
End LinEx.
