(** Model of the problem-building wrappers of funs.py: data_prob, map_problem, mud_problem. *)
Set Warnings "-notation-overridden,-ambiguous-paths".
From mathcomp Require Import all_ssreflect all_algebra.
From Coq Require Import String.
From Verif Require Import Py Nd Spec LinAlg Dmx LgpModel WmeModel.
From Verif Require Import Xnum UtilModel DensityModel BayesModel UtilModel2 StModel.
Set Implicit Arguments. Unset Strict Implicit. Unset Printing Implicit Defensive.
Import Order.Theory GRing.Theory Num.Theory.
Local Open Scope ring_scope.

Section Funs.
Variable R : rcfType.
Notation xnum := (xnum R).
Notation nd := (nd R).
(** Oracles as in DensityModel and BayesModel; [normal loc scale] =
    [dists.norm(loc=loc, scale=scale)]. *)
Variables (D KW BW : Type).
Variable pdf : D -> KW -> nd -> res (pdfval xnum).
Variable logpdf : D -> nd -> res (pdfval xnum).
Variables (nokw : KW) (nobw : BW).
Variable uniform : seq R -> seq R -> D.
Variable norm01 : D.
Variable normal : seq R -> R -> D.
Variable kde : nd -> BW -> seq xnum -> res D.
Variable kde_pdf : D -> nd -> res (seq xnum).
Variable trunc : R -> R.
(** numpy's global generator, as in UtilModel2. *)
Variable G : Type.
Variable randn : nat -> G -> seq R * G.
(** sklearn's PCA and numpy's SVD, as in StModel. *)
Variable pca_components : nd -> int -> res nd.
Variable svd_v : nd -> res nd.

(** [a.reshape(-1, 1) if a.ndim == 1 else a] (funs.py:263-264, 288-292). *)
Definition as_col (a : nd) : res nd :=
  if ndim a == 1%N then np_reshape [:: None; Some 1%N] a else Ok a.

(** [a.shape[1]] *)
Definition width2 (a : nd) : res nat := if (ndim a < 2)%N then Err IndexError else Ok (dim a 1).

(** funs.py:266-272, 293-300: the number of observations to use. *)
Definition obs_count (w : nat) (num_obs : option int) : res nat :=
  match num_obs with
  | None => Ok w
  | Some k => if k < 1 then Err ValueError else if Posz w < k then Err ValueError else Ok `|k|%N
  end.

(** [a[:, 0:m]] of a 2-D array *)
Definition first_cols (a : nd) (m : nat) : nd :=
  nd2 (minn m (dim a 1)) [seq take m r | r <- rows a].
(** [a[:, idx]] of a 2-D array and a list of integers *)
Definition cols_at (a : nd) (idx : seq int) : res nd :=
  js <- rmapM (py_index (dim a 1)) idx ;;
  Ok (nd2 (size js) [seq [seq nth 0 r j | j <- js] | r <- rows a]).
(** [s[idx]] of a 1-D array and a list of integers *)
Definition at_ints (s : seq R) (idx : seq int) : res (seq R) :=
  js <- rmapM (py_index (size s)) idx ;; Ok [seq nth 0 s j | j <- js].
(** [u + v] of 1-D arrays, with broadcasting *)
Definition vadd (u v : seq R) : res (seq R) :=
  if size u == size v then Ok [seq p.1 + p.2 | p <- zip u v]
  else if size u == 1%N then Ok [seq head 0 u + y | y <- v]
  else if size v == 1%N then Ok [seq x + head 0 v | x <- u]
  else Err ValueError.
(** [np.vstack(q).T] of a list of 1-D arrays of length n (ValueError: an empty list) *)
Definition stack_cols (n : nat) (q : seq (seq R)) : res nd :=
  if q is [::] then Err ValueError
  else Ok (nd2 (size q) [seq [seq nth 0 c i | c <- q] | i <- iota 0 n]).

(** funs.py:307-308 *)
Definition qoi_all (qoi : nd) (truth : seq R) (noise : seq R) (m : nat) (sd : R) : res nd :=
  dat <- vadd (take m truth) noise ;;
  v <- wme (first_cols qoi m) (nd1 dat) (Some sd) ;;
  np_reshape [:: None; Some 1%N] (nd1 v).
(** funs.py:310-317 *)
Definition qoi_split (qoi : nd) (truth : seq R) (noise : seq R) (m : nat) (sd : R)
    (split : seq (seq int)) : res nd :=
  q <- rmapM (fun idx =>
         let js := filter (fun i : int => i < Posz m) idx in
         sub <- cols_at qoi js ;; a <- at_ints truth js ;; b <- at_ints noise js ;;
         dat <- vadd a b ;; wme sub (nd1 dat) (Some sd)) split ;;
  stack_cols (dim qoi 0) q.

(** funs.py:281-320 mud_problem; the generator's state after the call comes first.  [xint],
    [domint]: lam / domain given with an integer dtype.  Simplifications: lam, qoi of at
    most two dimensions, qoi_true one-dimensional (array or list), sd a number other than 0,
    split a list of 1-D integer arrays. *)
Definition mud_problem (lam qoi : nd) (truth : seq R) (xint : bool) (domain : option nd) (domint : bool)
    (sd : R) (num_obs : option int) (split : option (seq (seq int))) (weights : option nd) (g : G)
  : G * res (dprob R D) :=
  match (lam <- as_col lam ;; qoi <- as_col qoi ;; w <- width2 qoi ;; m <- obs_count w num_obs ;;
         Ok (lam, qoi, m)) with
  | Err e => (g, Err e)
  | Ok (lam, qoi, m) =>
      let: (z, g') := randn m g in
      let noise := [seq x * sd | x <- z] in
      (g', q <- (if split is Some sp then qoi_split qoi truth noise m sd sp
                 else qoi_all qoi truth noise m sd) ;;
           density_init D trunc lam q xint domain domint weights false (10%:R^-1))
  end.

(** funs.py:258-278 map_problem *)
Definition map_problem (lam qoi : nd) (truth : seq R) (xint : bool) (domain : option nd)
    (sd : R) (num_obs : option int) (lg : bool) (g : G) : G * res (bprob R D) :=
  match (lam <- as_col lam ;; qoi <- as_col qoi ;; w <- width2 qoi ;; m <- obs_count w num_obs ;;
         Ok (lam, qoi, m)) with
  | Err e => (g, Err e)
  | Ok (lam, qoi, m) =>
      let: (z, g') := randn m g in
      (g', dat <- vadd (take m truth) [seq x * sd | x <- z] ;;
           b <- bayes_init D trunc lam (first_cols qoi m) xint domain ;;
           let: (b', r) := set_likelihood (fun d => pdf d nokw) logpdf b (normal dat sd) lg in
           rmap (fun _ => b') r)
  end.

(** funs.py:214-255 data_prob; every entry is put into the data set, None if not given.
    [idxs] is not used. *)
Definition pyv_of (a : option nd) : pyv R := if a is Some a then VArr a else VNone R.
Definition data_prob (lam qoi : nd) (qoi_true measurements : option nd) (std_dev : option R)
    (sample_dist : string) (domain lam_ref times sensors : option nd) (method : string) (init_dist : D)
  : res (dprob R D) :=
  let ds : dset R :=
    [:: ("lam", VArr lam); ("data", VArr qoi); ("true_vals", pyv_of qoi_true);
        ("measurements", pyv_of measurements);
        ("std_dev", if std_dev is Some x then VNum x else VNone R);
        ("sample_dist", VStr R sample_dist); ("domain", pyv_of domain);
        ("lam_ref", pyv_of lam_ref); ("times", pyv_of times); ("sensors", pyv_of sensors)]%string in
  let: (s, r) := load (st0 R) ds (@NName R) in
  _ <- r ;;
  P <- st_mud_problem D trunc pca_components svd_v s method None None 2 None None None ;;
  let: (P', r') := sbind (set_initial pdf nokw uniform P (Some init_dist)) (fun P _ =>
                   sbind (set_observed pdf nokw norm01 P (Some norm01)) (fun P _ =>
                   estimate pdf nokw nobw uniform norm01 kde kde_pdf P)) in
  rmap (fun _ => P') r'.
End Funs.
