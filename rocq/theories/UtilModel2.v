(** Model of the remaining functions of util.py: std_from_equipment, null_space,
    make_2d_unit_mesh, add_noise, rank_decomposition, fit_domain on a caller's array. *)
Set Warnings "-notation-overridden,-ambiguous-paths".
From mathcomp Require Import all_ssreflect all_algebra.
From Verif Require Import Py Nd Xnum UtilModel.
Set Implicit Arguments. Unset Strict Implicit. Unset Printing Implicit Defensive.
Import Order.Theory GRing.Theory Num.Theory.
Local Open Scope ring_scope.

Section Equipment.
Variable R : rcfType.
(** scipy.special.erfinv, an oracle (infinite at 1, NaN outside [-1,1]). *)
Variable erfinv : R -> xnum R.
(** util.py:8-16 *)
Definition std_from_equipment (tolerance probability : R) : xnum R :=
  xdiv (Fin tolerance) (xmul (erfinv probability) (Fin (Num.sqrt 2%:R))).
End Equipment.

Section NullSpace.
Variable R : realFieldType.
(** Result of [np.linalg.svd(A, full_matrices=True)]: u, s, vh (an oracle). *)
Record svd_out m n := Svd { sv_u : 'M[R]_m; sv_s : seq R; sv_vh : 'M[R]_n }.

(** util.py:137-143: [num], the number of singular values above the tolerance. *)
Definition ns_tol (s : seq R) (rcond : R) : R := np_max s * rcond.
Definition ns_num (s : seq R) (rcond : R) : nat := count (fun x => ns_tol s rcond < x) s.

Definition rows_from n (V : 'M[R]_n) (k : nat) : 'M[R]_(n - k, n) :=
  \matrix_(i, j) (if insub (k + i)%N is Some i' then V i' j else 0).
(** util.py:88-143 null_space with the decomposition as an argument; [eps] is
    [np.finfo(s.dtype).eps].  [np.amax] of no singular values: ValueError.
    The number of columns is part of the result. *)
Definition null_space (eps : R) m n (d : svd_out m n) (rcond : option R)
  : res {k : nat & 'M[R]_(n, k)} :=
  let rc := odflt (eps * (maxn m n)%:R) rcond in
  if size (sv_s d) == 0%N then Err ValueError else
  let num := ns_num (sv_s d) rc in
  Ok (existT _ (n - num)%N (rows_from (sv_vh d) num)^T).

(** Column [i] of a matrix, IndexError when there is none. *)
Definition get_col m n (A : 'M[R]_(m, n)) (i : nat) : res 'cV[R]_m :=
  if insub i is Some i' then Ok (col i' A) else Err IndexError.
Definition get_nth (s : seq R) (i : nat) : res R :=
  if (i < size s)%N then Ok (nth 0 s i) else Err IndexError.

(** util.py:235, 237: [s[i] * u[:, i].reshape(-1,1) @ v[:, i].reshape(1,-1)]. *)
Definition rank1 m n (d : svd_out m n) (i : nat) : res 'M[R]_(m, n) :=
  si <- get_nth (sv_s d) i ;; ui <- get_col (sv_u d) i ;; vi <- get_col (sv_vh d) i ;;
  Ok ((si *: ui) *m vi^T).

(** util.py:236-238: the loop body for i, i+1, ..., with the updates collected so far; the
    slice [rank_1_updates[0:i]] and [sum]. *)
Fixpoint rank_loop m n (d : svd_out m n) (i todo : nat) (ups : seq 'M[R]_(m, n))
  : res (seq 'M[R]_(m, n)) :=
  match todo with
  | 0%N => Ok [::]
  | todo'.+1 =>
      u <- rank1 d i ;;
      let ups' := rcons ups u in
      rest <- rank_loop d i.+1 todo' ups' ;;
      Ok (\sum_(x <- take i ups') x :: rest)
  end.

(** util.py:229-240 rank_decomposition *)
Definition rank_decomposition m n (d : svd_out m n) : res (seq 'M[R]_(m, n)) :=
  a0 <- rank1 d 0 ;; rest <- rank_loop d 1 (n - 1) [::] ;; Ok (a0 :: rest).
End NullSpace.

Section Mesh.
Variable R : realFieldType.
(** [np.linspace(a, b, num)] (exact arithmetic); ValueError for a negative number. *)
Definition linspace (a b : R) (num : int) : res (seq R) :=
  match num with
  | Posz N => Ok [seq a + i%:R * ((b - a) / (N.-1)%:R) | i <- iota 0 N]
  | Negz _ => Err ValueError
  end.

(** [np.meshgrid(x, y)] (indexing 'xy'): the rows of the two arrays. *)
Definition meshgrid2 (x y : seq R) : seq (seq R) * seq (seq R) :=
  ([seq x | _ <- y], [seq nseq (size x) b | b <- y]).

(** util.py:146-183 make_2d_unit_mesh (the same function again at plot.py:139-144): X, Y and the
    rows of XX. *)
Definition make_2d_unit_mesh (N : int) (window : R)
  : res (seq (seq R) * seq (seq R) * seq (R * R)) :=
  X <- linspace 0 window N ;; Y <- linspace 0 window N ;;
  let XY := meshgrid2 X Y in
  Ok (XY.1, XY.2, zip (flatten XY.1) (flatten XY.2)).
End Mesh.

Section Noise.
Variable R : realFieldType.
(** numpy's global generator: [G] its states, [reseed k] = [np.random.seed(k)] (raises for
    seeds out of range), [randn n g]: n normal draws and the next state. *)
Variable G : Type.
Variable reseed : int -> res G.
Variable randn : nat -> G -> seq R * G.

(** [a + v] for an array [a] and a 1-D array [v], with numpy broadcasting. *)
Definition add_last (a : nd R) (v : seq R) : res (nd R) :=
  let k := size v in
  if ndim a == 0%N then Ok (Nd [:: k] [seq head 0 (data a) + y | y <- v]) else
  let n := last 0%N (shape a) in
  if n == k then
    Ok (Nd (shape a) (flatten [seq [seq p.1 + p.2 | p <- zip r v]
                              | r <- reshape (nseq (size (data a) %/ n) n) (data a)]))
  else if n == 1%N then
    Ok (Nd (rcons (belast (head 0%N (shape a)) (behead (shape a))) k)
           (flatten [seq [seq x + y | y <- v] | x <- data a]))
  else if k == 1%N then Ok (Nd (shape a) [seq x + head 0 v | x <- data a])
  else Err ValueError.

(** util.py:186-226 add_noise; the generator's state after the call comes first. *)
Definition add_noise (signal : nd R) (sd : R) (seed : option int) (g : G) : G * res (nd R) :=
  match (if seed is Some k then reseed k else Ok g) with
  | Err e => (g, Err e)
  | Ok g1 =>
      let: (z, g2) := randn (size (data signal)) g1 in
      (g2, add_last signal [seq x * sd | x <- z])
  end.
End Noise.

Section FitDomain.
Variable R : realFieldType.
(** util.py:243-284 fit_domain(min_max_bounds=B): the caller's array after the call, and
    the result (which is that same array). *)
Definition fit_domain_inplace (cast : R -> R) (B : nd R) (ratio : R) : nd R * res (nd R) :=
  match fit_domain_bounds cast ratio B with
  | Ok B' => (B', Ok B')
  | Err e => (B, Err e)
  end.
End FitDomain.
