(** Model of plot.py: the grids, plot_dist, plot_contours, plotChain.  The plotting methods of
    base.py are in DrawModel.v. *)
Set Warnings "-notation-overridden,-ambiguous-paths".
From mathcomp Require Import all_ssreflect all_algebra.
From Coq Require Import String.
From Verif Require Import Py Nd LinAlg Dmx LgpModel UtilModel UtilModel2.
Set Implicit Arguments. Unset Strict Implicit. Unset Printing Implicit Defensive.
Import Order.Theory GRing.Theory Num.Theory.
Local Open Scope ring_scope.

(** ** Multi-indices of an array in C order *)
(** The multi-index of the flat position q, and back. *)
Fixpoint unravel (sh : seq nat) (q : nat) : seq nat :=
  if sh is _ :: sh' then (q %/ prodn sh')%N :: unravel sh' (q %% prodn sh') else [::].
Fixpoint ravel_index (sh ix : seq nat) : nat :=
  if sh is _ :: sh' then (head 0 ix * prodn sh' + ravel_index sh' (behead ix))%N else 0%N.

(** Exchange of the first two entries, what [np.meshgrid] does with indexing 'xy'. *)
Definition swap01 (s : seq nat) : seq nat :=
  if s is x :: y :: s' then [:: y, x & s'] else s.

Section Grids.
Variable R : realFieldType.
Notation nd := (nd R).

(** [np.meshgrid( *xs)] *)
Definition meshgrid (xs : seq (seq R)) : seq nd :=
  let sh := swap01 [seq size x | x <- xs] in
  [seq Nd sh [seq nth 0 (nth [::] xs k) (nth 0%N (swap01 (unravel sh q)) k) | q <- iota 0 (prodn sh)]
  | k <- iota 0 (size xs)].

(** [np.linspace(i, j, aff)[:-1]], also [np.linspace(i, j, aff)[:aff-1]] (plot.py:207, 222) *)
Definition ticks (lo hi : R) (aff : int) : res (seq R) :=
  rmap (fun s => take (size s).-1 s) (linspace lo hi aff).

(** plot.py:168-200 build_nd_mesh_grid: the arrays of the mesh and the rows of grid_points
    ([np.vstack] of no arrays: ValueError).  Simplification: the rows of domain are pairs. *)
Definition build_nd_mesh_grid (domain : seq (R * R)) (aff : int) : res (seq nd * seq (seq R)) :=
  xs <- rmapM (fun p => ticks p.1 p.2 aff) domain ;;
  let mesh := meshgrid xs in
  if mesh is [::] then Err ValueError else Ok (mesh, [seq data m | m <- mesh]).

(** [scipy.stats.contingency.margins(a)[k].reshape(-1)]: the sums over all axes but k. *)
Definition margin (a : nd) (k : nat) : seq R :=
  [seq \sum_(q <- iota 0 (prodn (shape a)) | nth 0%N (unravel (shape a) q) k == i) nth 0 (data a) q
  | i <- iota 0 (nth 0%N (shape a) k)].

(** [a.T] *)
Definition transpose (a : nd) : nd :=
  Nd (rev (shape a))
     [seq nth 0 (data a) (ravel_index (shape a) (rev (unravel (rev (shape a)) q)))
     | q <- iota 0 (prodn (shape a))].

(** [np.reshape(v, sh)] of a 1-D array *)
Definition reshape1 (v : seq R) (sh : seq nat) : res nd :=
  if size v == prodn sh then Ok (Nd sh v) else Err ValueError.

(** The columns of grid_points, i.e. the rows of grid.T. *)
Definition points (grid : seq (seq R)) : seq (seq R) :=
  [seq [seq nth 0 r q | r <- grid] | q <- iota 0 (size (head [::] grid))].

(** Oracles: [pdf pts] = [dist.pdf(grid.T)] as its rows, [kde pts] = [dist(grid)]. *)
Variable pdf : seq (seq R) -> res (seq (seq R)).
Variable kde : seq (seq R) -> res (seq R).

(** plot.py:203-234 plot_dist: the points handed to [ax.plot], drawing itself not modelled.
    Simplifications: the density values are numbers; total = 0 (numpy: NaN or infinity) is not
    meaningful in the model. *)
Definition plot_dist (domain : seq (R * R)) (idx : int) (source : string) (aff : int)
  : res (seq R * seq R) :=
  mg <- build_nd_mesh_grid domain aff ;;
  k <- py_index (size domain) idx ;;
  let iv := nth (0, 0) domain k in
  plot_x <- ticks iv.1 iv.2 aff ;;
  let sh := shape (nth (nd1 [::]) mg.1 k) in
  plot_y <- (if (source =? "pdf")%string then
               v <- pdf (points mg.2) ;; a <- reshape1 [seq \prod_(x <- r) x | r <- v] sh ;;
               Ok (margin a k)
             else if (source =? "kde")%string then
               v <- kde (points mg.2) ;; a <- reshape1 v sh ;; Ok (margin (transpose a) k)
             else Err ValueError) ;;
  if (size plot_x < 2)%N then Err IndexError else
  let total := \sum_(y <- plot_y) y * `|nth 0 plot_x 1 - nth 0 plot_x 0| in
  Ok (plot_x, [seq y / total | y <- plot_y]).

(** plot.py:131-136 make_2d_normal_mesh *)
Definition make_2d_normal_mesh (N : int) (window : R)
  : res (seq (seq R) * seq (seq R) * seq (R * R)) :=
  X <- linspace (- window) window N ;; Y <- linspace (- window) window N ;;
  let XY := meshgrid2 X Y in
  Ok (XY.1, XY.2, zip (flatten XY.1) (flatten XY.2)).

(** A drawn line: its x and y coordinates. *)
Definition line := (seq R * seq R)%type.

(** Oracle: the columns of [null_space(row)]. *)
Variable ns : seq R -> res (seq (seq R)).

(** [s[i]] for a list or 1-D array and a constant index *)
Definition get (s : seq R) (i : nat) : res R := if (i < size s)%N then Ok (nth 0 s i) else Err IndexError.

(** [A[np.array(subset), :]] (an empty list becomes a float array: IndexError) *)
Definition pick_rows (A : seq (seq R)) (subset : option (seq int)) : res (seq (seq R)) :=
  match subset with
  | None => Ok A
  | Some [::] => Err IndexError
  | Some l => js <- rmapM (py_index (size A)) l ;; Ok [seq nth [::] A j | j <- js]
  end.

(** plot.py:116-128 plot_contours (also the loop of base.py:1298-1311): the lines drawn with
    their labels. *)
Definition contour_line (ref v : seq R) (w : R) : res line :=
  r0 <- get ref 0 ;; v0 <- get v 0 ;; r1 <- get ref 1 ;; v1 <- get v 1 ;;
  Ok ([:: r0 - w * v0; r1 + w * v0], [:: r0 - w * v1; r1 + w * v1]).
Definition plot_contours (A : seq (seq R)) (ref : seq R) (subset : option (seq int)) (w : R)
  : res (seq (line * int)) :=
  A' <- pick_rows A subset ;;
  vs <- rmapM ns A' ;;
  let labels := if subset is Some l then l else [seq Posz i | i <- iota 0 (size A)] in
  if A' is [::] then Err ValueError else
  rmapM (fun p => v <- (if (p.1 < size (flatten vs))%N then Ok (nth [::] (flatten vs) p.1)
                        else Err IndexError) ;;
                  l <- contour_line ref v w ;; Ok (l, p.2 + 1)) (zip (iota 0 (size labels)) labels).

(** plot.py:100-113 plotChain, base.py:1499-1508: the line segments drawn for one chain of
    columns (hstack of the previous and the next point). *)
Fixpoint chain_lines (current : seq R) (chain : seq (seq R)) : seq line :=
  if chain is p :: chain' then
    ([:: nth 0 current 0; nth 0 p 0], [:: nth 0 current 1; nth 0 p 1]) :: chain_lines p chain'
  else [::].
Definition plotChain (chain : seq (seq R)) : res (seq line) :=
  if chain is p :: _ then Ok (chain_lines p chain) else Err IndexError.
End Grids.
