(** Model of base.SpatioTemporalProblem (base.py:1528-2030), without its plots. *)
Set Warnings "-notation-overridden,-ambiguous-paths".
From mathcomp Require Import all_ssreflect all_algebra.
From Coq Require Import String.
From Verif Require Import Py Nd Xnum UtilModel DensityModel UtilModel2.
Set Implicit Arguments. Unset Strict Implicit. Unset Printing Implicit Defensive.
Import Order.Theory GRing.Theory Num.Theory.
Local Open Scope ring_scope.

(** Index arguments of [sample_data]: an integer list or array, a boolean list or array, a
    slice.  Simplification: a single integer (which drops a dimension) is not modelled. *)
Inductive mask := MInts of seq int | MBools of seq bool | MSlice of option int & option int.

(** A bound of a slice of a sequence of length n. *)
Definition slice_bound (n : nat) (dflt : nat) (b : option int) : nat :=
  match b with
  | None => dflt
  | Some (Posz k) => minn k n
  | Some (Negz k) => (n - k.+1)%N
  end.

(** The positions a mask selects from [n] entries (numpy indexing). *)
Definition resolve (n : nat) (m : mask) : res (seq nat) :=
  match m with
  | MInts l => rmapM (py_index n) l
  | MBools l => if size l == n then Ok (filter (nth false l) (iota 0 n)) else Err IndexError
  | MSlice a b => let lo := slice_bound n 0 a in let hi := slice_bound n n b in
                  Ok (iota lo (hi - lo))
  end.

(** [a[mask]]: entries along the first axis. *)
Definition take0 V (a : nd V) (idx : seq nat) : nd V :=
  let b := prodn (behead (Nd.shape a)) in
  Nd (size idx :: behead (Nd.shape a))
     (flatten [seq take b (drop (i * b) (data a)) | i <- idx]).

Section St.
Variable R : rcfType.
Notation nd := (nd R).

(** [_measurements] / [_true_vals]: an array of numbers, or the 1 x 1 array holding None
    that np.reshape(None, (1, 1)) makes. *)
Inductive narr := NArr of nd | NObj.

(** Instance attributes, base.py:1546-1557; [_lam_ref] does not exist before its setter has
    run.  Simplifications: [std_dev] is a number (or None); [sensors], [times] are arrays
    (or None); [qoi], [pca], [svd], [_true_lam] are not modelled. *)
Record st := ST {
  s_dom : option nd; s_lam : option nd; s_lref : option (seq R);
  s_data : option nd; s_meas : option narr; s_tv : option narr;
  s_dist : option string; s_sens : option nd; s_times : option nd; s_sd : option R }.

(** base.py:1546-1557 *)
Definition st0 : st := ST None None None None None None None None None None.

Definition with_dom s d := ST (Some d) (s_lam s) (s_lref s) (s_data s) (s_meas s) (s_tv s)
  (s_dist s) (s_sens s) (s_times s) (s_sd s).
Definition with_lam s l := ST (s_dom s) (Some l) (s_lref s) (s_data s) (s_meas s) (s_tv s)
  (s_dist s) (s_sens s) (s_times s) (s_sd s).
Definition with_lref s l := ST (s_dom s) (s_lam s) (Some l) (s_data s) (s_meas s) (s_tv s)
  (s_dist s) (s_sens s) (s_times s) (s_sd s).
Definition with_data s d := ST (s_dom s) (s_lam s) (s_lref s) (Some d) (s_meas s) (s_tv s)
  (s_dist s) (s_sens s) (s_times s) (s_sd s).
Definition with_meas s m := ST (s_dom s) (s_lam s) (s_lref s) (s_data s) (Some m) (s_tv s)
  (s_dist s) (s_sens s) (s_times s) (s_sd s).
Definition with_tv s m := ST (s_dom s) (s_lam s) (s_lref s) (s_data s) (s_meas s) (Some m)
  (s_dist s) (s_sens s) (s_times s) (s_sd s).
Definition with_dist s x := ST (s_dom s) (s_lam s) (s_lref s) (s_data s) (s_meas s) (s_tv s)
  (Some x) (s_sens s) (s_times s) (s_sd s).
Definition with_sens s x := ST (s_dom s) (s_lam s) (s_lref s) (s_data s) (s_meas s) (s_tv s)
  (s_dist s) x (s_times s) (s_sd s).
Definition with_times s x := ST (s_dom s) (s_lam s) (s_lref s) (s_data s) (s_meas s) (s_tv s)
  (s_dist s) (s_sens s) x (s_sd s).
Definition with_sd s x := ST (s_dom s) (s_lam s) (s_lref s) (s_data s) (s_meas s) (s_tv s)
  (s_dist s) (s_sens s) (s_times s) x.

(** [a.shape[0]] *)
Definition shape0 (a : nd) : res nat := if ndim a == 0%N then Err IndexError else Ok (dim a 0).
Definition of_opt A e (o : option A) : res A := if o is Some a then Ok a else Err e.

(** base.py:1562-1588 *)
Definition n_samples (s : st) : res nat := l <- of_opt AttributeError (s_lam s) ;; shape0 l.
Definition n_sensors (s : st) : res nat := a <- of_opt AttributeError (s_sens s) ;; shape0 a.
Definition n_ts (s : st) : res nat := a <- of_opt AttributeError (s_times s) ;; shape0 a.

(** [all(u R v)] for 1-D arrays with numpy broadcasting. *)
Definition bcast_all (f : R -> R -> bool) (u v : seq R) : res bool :=
  if size u == size v then Ok (all (fun p => f p.1 p.2) (zip u v))
  else if size u == 1%N then Ok (all (fun y => f (head 0 u) y) v)
  else if size v == 1%N then Ok (all (fun x => f x (head 0 v)) u)
  else Err ValueError.

(** base.py:1631-1643 domain setter; note that line 1635 looks at the old domain. *)
Definition set_domain (s : st) (a : nd) : st * res unit :=
  match (d <- np_reshape [:: None; Some 2%N] a ;;
         _ <- match s_lam s with
              | None => Ok tt
              | Some lam =>
                  old <- of_opt AttributeError (s_dom s) ;;
                  _ <- guard (dim old 0 == dim lam 1) ValueError ;;
                  mm <- bounds_of lam ;;
                  lo <- bcast_all (fun x y => x <= y) (column d 0) (column mm 0) ;;
                  hi <- bcast_all (fun x y => y <= x) (column d 1) (column mm 1) ;;
                  guard (lo && hi) ValueError
              end ;;
         Ok d) with
  | Ok d => (with_dom s d, Ok tt)
  | Err e => (s, Err e)
  end.

(** base.py:1709-1714 sample_dist setter *)
Definition set_dist (s : st) (x : string) : st * res unit :=
  if (x =? "u")%string || (x =? "n")%string then (with_dist s x, Ok tt) else (s, Err ValueError).

(** base.py:1594-1609 lam setter.  Simplification: arrays of one or two dimensions. *)
Definition set_lam (s : st) (a : nd) : st * res unit :=
  match (if ndim a == 1%N then np_reshape [:: None; Some 1%N] a else Ok a) with
  | Err e => (s, Err e)
  | Ok lam =>
      sbind (match s_dom s with
             | Some d => lift s (guard (dim lam 1 == dim d 0) ValueError)
             | None => match bounds_of lam with
                       | Err e => (s, Err e)
                       | Ok mm => set_domain s mm
                       end
             end) (fun s _ =>
      sbind (match s_dist s with
             | None => set_dist s "u"
             | Some _ => (s, Ok tt)
             end) (fun s _ => (with_lam s lam, Ok tt)))
  end.

(** base.py:1620-1624: the loop over the entries. *)
Fixpoint lref_check (dom : seq (seq R)) (xs : seq R) : res unit :=
  match xs, dom with
  | [::], _ => Ok tt
  | _ :: _, [::] => Err IndexError
  | x :: xs', r :: dom' =>
      if (x < nth 0 r 0) || (nth 0 r 1 < x) then Err ValueError else lref_check dom' xs'
  end.

(** base.py:1615-1625 lam_ref setter *)
Definition set_lref (s : st) (a : nd) : st * res unit :=
  match s_dom s with
  | None => (s, Err AttributeError)
  | Some d => match lref_check (rows d) (data a) with
              | Ok _ => (with_lref s (data a), Ok tt)
              | Err e => (s, Err e)
              end
  end.

(** [np.array([0])], [np.arange(0, n)] *)
Definition arr0 : nd := nd1 [:: 0].
Definition arange (n : nat) : nd := nd1 [seq i%:R | i <- iota 0 n].

(** base.py:1651-1657: one dimension becomes a column, three dimensions are flattened. *)
Definition data_2d (a : nd) : res nd :=
  if ndim a == 1%N then np_reshape [:: None; Some 1%N] a
  else if ndim a == 3%N then np_reshape [:: Some (dim a 0); None] a
  else Ok a.

(** base.py:1649-1684 data setter.  Simplification: arrays of one to three dimensions. *)
Definition set_data (s : st) (a : nd) : st * res unit :=
  match data_2d a with
  | Err e => (s, Err e)
  | Ok d =>
      let s := match s_sens s, s_times s with
               | None, None => with_times (with_sens s (Some arr0)) (Some (arange (dim d 1)))
               | _, _ => s
               end in
      sbind (match s_sens s, s_times s with
             | Some se, None =>
                 sbind (lift s (k <- shape0 se ;; guard (k == dim d 1) ValueError))
                       (fun s _ => (with_times s (Some arr0), Ok tt))
             | _, _ => (s, Ok tt)
             end) (fun s _ =>
      sbind (match s_sens s, s_times s with
             | None, Some ti =>
                 sbind (lift s (k <- shape0 ti ;; guard (k == dim d 1) ValueError))
                       (fun s _ => (with_sens s (Some arr0), Ok tt))
             | _, _ => (s, Ok tt)
             end) (fun s _ =>
      sbind (match s_sens s, s_times s with
             | Some se, Some ti =>
                 lift s (t <- shape0 ti ;; k <- shape0 se ;; guard ((t * k)%N == dim d 1) ValueError)
             | _, _ => (s, Ok tt)
             end) (fun s _ => (with_data s d, Ok tt))))
  end.

(** base.py:1692, 1701: [np.reshape(x, (n_sensors * n_ts, 1))]; [None]: the Python None. *)
Definition meas_reshape (s : st) (a : option nd) : res narr :=
  k <- n_sensors s ;; t <- n_ts s ;;
  match a with
  | Some a => rmap NArr (np_reshape [:: Some (k * t)%N; Some 1%N] a)
  | None => if (k * t)%N == 1%N then Ok NObj else Err ValueError
  end.
(** base.py:1691-1693 measurements setter *)
Definition set_meas (s : st) (a : option nd) : st * res unit :=
  match meas_reshape s a with Ok m => (with_meas s m, Ok tt) | Err e => (s, Err e) end.
(** base.py:1700-1702 true_vals setter *)
Definition set_tv (s : st) (a : option nd) : st * res unit :=
  match meas_reshape s a with Ok m => (with_tv s m, Ok tt) | Err e => (s, Err e) end.

(** base.py:1844-1880 sample_data: lam, times, sensors, data (2-D), measurements (1-D).
    Simplification: a [NObj] measurement raises TypeError here (in the code: in the
    arithmetic that follows). *)
Record sampled := SD { sd_lam : nd; sd_times : nd; sd_sens : nd; sd_data : nd;
                       sd_meas : option (seq R) }.

(** The entries of an array of shape (n, k, t), nested. *)
Definition cube (n k t : nat) (s : seq R) : seq (seq (seq R)) :=
  [seq reshape (nseq k t) b | b <- reshape (nseq n (k * t)%N) s].
Definition pick V (x0 : V) (idx : option (seq nat)) (s : seq V) : seq V :=
  if idx is Some l then [seq nth x0 s i | i <- l] else s.

Definition sample_data (s : st) (sm tm xm : option mask) : res sampled :=
  d <- of_opt AttributeError (s_data s) ;;
  lam <- of_opt AttributeError (s_lam s) ;; n <- n_samples s ;;
  k <- n_sensors s ;; t <- n_ts s ;;
  _ <- guard (size (data d) == (n * k * t)%N) ValueError ;;
  let c := cube n k t (data d) in
  meas <- match s_meas s with
          | None => Ok None
          | Some NObj => if (k * t)%N == 1%N then Err TypeError else Err ValueError
          | Some (NArr m) => _ <- guard (size (data m) == (k * t)%N) ValueError ;;
                             Ok (Some (reshape (nseq k t) (data m)))
          end ;;
  times <- of_opt AttributeError (s_times s) ;; sens <- of_opt AttributeError (s_sens s) ;;
  si <- (if sm is Some m then rmap Some (resolve n m) else Ok None) ;;
  let lam' := if si is Some i then take0 lam i else lam in
  ti <- (if tm is Some m then rmap Some (resolve t m) else Ok None) ;;
  times' <- (if ti is Some i then np_reshape [:: None; Some 1%N] (take0 times i) else Ok times) ;;
  xi <- (if xm is Some m then rmap Some (resolve k m) else Ok None) ;;
  sens' <- (if xi is Some i then np_reshape [:: None; Some 2%N] (take0 sens i) else Ok sens) ;;
  let c' := [seq [seq pick 0 ti r | r <- pick [::] xi b] | b <- pick [::] si c] in
  let flat := flatten [seq flatten b | b <- c'] in
  let w := (dim times' 0 * dim sens' 0)%N in
  d' <- np_reshape [:: None; Some w] (nd1 flat) ;;
  meas' <- match meas with
           | None => Ok None
           | Some m => let f := flatten [seq pick 0 ti r | r <- pick [::] xi m] in
                       _ <- guard (size f == w) ValueError ;; Ok (Some f)
           end ;;
  Ok (SD lam' times' sens' d' meas').

(** [np.linalg.norm(sub_data - v, axis=1)]: the Euclidean distances of the rows to v. *)
Definition dists (d : nd) (v : seq R) : seq R :=
  [seq norm2 [seq p.1 - p.2 | p <- zip r v] | r <- rows d].
(** [np.linalg.norm(data - tv.T, axis=1)] where tv is a column: a single true value is
    subtracted from every entry of a row, a single entry is compared with all values. *)
Definition sub_bcast (r v : seq R) : seq R :=
  if size r == size v then [seq p.1 - p.2 | p <- zip r v]
  else if size v == 1%N then [seq x - head 0 v | x <- r]
  else [seq head 0 r - y | y <- v].
Definition dists_bcast (d : nd) (v : seq R) : res (seq R) :=
  if [|| size v == dim d 1, size v == 1%N | dim d 1 == 1%N]
  then Ok [seq norm2 (sub_bcast r v) | r <- rows d] else Err ValueError.
(** [lam[i, :].ravel()] *)
Definition lam_row (lam : nd) (i : nat) : res (seq R) :=
  if (i < dim lam 0)%N then Ok (nth [::] (rows lam) i) else Err IndexError.

(** base.py:1716-1733 get_closest_to_measurements ([None.T]: AttributeError). *)
Definition get_closest_to_measurements (s : st) (sm tm xm : option mask) : res (seq R) :=
  o <- sample_data s sm tm xm ;;
  m <- of_opt AttributeError (sd_meas o) ;;
  i <- argmin [seq Fin x | x <- dists (sd_data o) m] ;;
  lam_row (sd_lam o) i.

(** base.py:1735-1748 get_closest_to_true_vals.  [self.data - self.true_vals.T] with the
    true values a 2-D array with one column.  None minus an array, None[i]: TypeError.
    Simplification: true values put in place by [measurements_from_reference(ref)] are
    treated as a column (or 1-D array) here. *)
Definition get_closest_to_true_vals (s : st) : res (seq R) :=
  tv <- of_opt AttributeError (s_tv s) ;;
  v <- (if tv is NArr a then Ok (data a) else Err TypeError) ;;
  d <- of_opt TypeError (s_data s) ;;
  ds <- dists_bcast d v ;;
  i <- argmin [seq Fin x | x <- ds] ;;
  lam <- of_opt TypeError (s_lam s) ;;
  lam_row lam i.

(** ** load, base.py:1767-1825 *)
(** Values in a data set (or given as keyword arguments). *)
Inductive pyv := VNone | VArr of nd | VNum of R | VStr of string.

(** base.py:1804, 1806: [self.__setattr__(f, v)] for the fields of lines 1808-1817, lam and data.
    Simplification: values of a kind the field is not meant for raise OracleError where numpy
    would store something unusable. *)
Definition set_field (s : st) (f : string) (v : pyv) : st * res unit :=
  if (f =? "sample_dist")%string then
    match v with VStr x => set_dist s x | _ => (s, Err ValueError) end
  else if (f =? "domain")%string then
    match v with VArr a => set_domain s a | _ => (s, Err ValueError) end
  else if (f =? "sensors")%string then
    match v with VArr a => (with_sens s (Some a), Ok tt) | VNone => (with_sens s None, Ok tt)
            | _ => (s, Err OracleError) end
  else if (f =? "times")%string then
    match v with VArr a => (with_times s (Some a), Ok tt) | VNone => (with_times s None, Ok tt)
            | _ => (s, Err OracleError) end
  else if (f =? "lam_ref")%string then
    match v with
    | VArr a => set_lref s a
    | VNum x => set_lref s (nd0 x)
    | _ => match s_dom s with
           | None => (s, Err AttributeError)
           | Some d => if dim d 0 == 0%N then (s, Err IndexError) else (s, Err TypeError)
           end
    end
  else if (f =? "std_dev")%string then
    match v with VNum x => (with_sd s (Some x), Ok tt) | VNone => (with_sd s None, Ok tt)
            | _ => (s, Err OracleError) end
  else if (f =? "true_vals")%string then
    match v with VArr a => set_tv s (Some a) | VNum x => set_tv s (Some (nd0 x))
            | VNone => set_tv s None | VStr _ => (s, Err OracleError) end
  else if (f =? "measurements")%string then
    match v with VArr a => set_meas s (Some a) | VNum x => set_meas s (Some (nd0 x))
            | VNone => set_meas s None | VStr _ => (s, Err OracleError) end
  else if (f =? "lam")%string then
    match v with VArr a => set_lam s a
            | _ => if s_dom s is Some _ then (s, Err IndexError) else (s, Err OracleError) end
  else if (f =? "data")%string then
    match v with VArr a => set_data s a | _ => (s, Err AttributeError) end
  else (s, Err OracleError).

(** A data set: a dictionary. *)
Definition dset := seq (string * pyv).
Fixpoint lookup (ds : dset) (k : string) : option pyv :=
  match ds with
  | [::] => None
  | (k', v) :: ds' => if (k =? k')%string then Some v else lookup ds' k
  end.

(** The name arguments of load: a name, or a value itself. *)
Inductive nameval := NName of string | NVal of pyv.

(** base.py:1802-1806 get_set_val *)
Definition get_set_val (ds : dset) (s : st) (f : string) (v : nameval) : st * res unit :=
  if lookup ds f is Some _ then
    match v with
    | NName k => match lookup ds k with Some x => set_field s f x | None => (s, Err KeyError) end
    | NVal (VArr _) => (s, Err TypeError)
    | NVal (VStr k) => match lookup ds k with Some x => set_field s f x | None => (s, Err KeyError) end
    | NVal _ => (s, Err KeyError)
    end
  else
    match v with
    | NVal VNone | NVal (VStr _) | NName _ => (s, Ok tt)
    | NVal x => set_field s f x
    end.

(** base.py:1808-1823: the order of the fields. *)
Definition fields : seq string :=
  [:: "sample_dist"; "domain"; "sensors"; "times"; "lam_ref"; "std_dev"; "true_vals";
      "measurements"; "lam"; "data"]%string.

Fixpoint load_loop (ds : dset) (names : string -> nameval) (fs : seq string) (s : st)
  : st * res unit :=
  match fs with
  | [::] => (s, Ok tt)
  | f :: fs' => sbind (get_set_val ds s f (names f)) (fun s _ => load_loop ds names fs' s)
  end.

(** base.py:1767-1825 load with a dictionary; [names]: the names (or values) given for the
    fields.  Simplification: reading files and keyword arguments for other attributes are not
    modelled. *)
Definition load (s : st) (ds : dset) (names : string -> nameval) : st * res unit :=
  load_loop ds names fields s.

(** base.py:1827-1842 validate; [_true_lam] has no property [true_lam], so asking for it
    raises AttributeError. *)
Definition validate (s : st) (check_meas check_true : bool) : res unit :=
  if check_true then Err AttributeError else
  guard [&& isSome (s_dom s), isSome (s_lam s), isSome (s_data s) & ~~ check_meas || isSome (s_meas s)]
        ValueError.

(** ** mud_problem, base.py:1976-2030 *)
Variable D : Type.
Variable trunc : R -> R.
(** sklearn's PCA of the standardised data (its components), numpy's svd of the standardised
    data (its third factor): oracles on 2-D data. *)
Variable pca_components : nd -> int -> res nd.
Variable svd_v : nd -> res nd.

(** preprocessing.py:95-104 pca, :163-172 svd *)
Definition pca (a : nd) (k : int) : res nd :=
  if ndim a != 2%N then Err ValueError else pca_components a k.
Definition svd (a : nd) : res nd := if ndim a != 2%N then Err ValueError else svd_v a.

(** [residuals @ comps.T] *)
Definition matmulT (a b : nd) : res nd :=
  if dim a 1 != dim b 1 then Err ValueError else
  Ok (nd2 (dim b 0) [seq [seq \sum_(p <- zip r c) p.1 * p.2 | c <- rows b] | r <- rows a]).

(** [v[0:k, :]] *)
Definition first_rows (a : nd) (k : int) : nd :=
  take0 a (iota 0 (slice_len (dim a 0) (Some k))).

(** base.py:1994: [(sub_meas - sub_data) / std_dev]. *)
Definition residuals (o : sampled) (sd : option R) : res nd :=
  m <- of_opt TypeError (sd_meas o) ;; x <- of_opt TypeError sd ;;
  Ok (nd2 (size m) [seq [seq (p.1 - p.2) / x | p <- zip m r] | r <- rows (sd_data o)]).

(** base.py:1997-2004: the weights are normalised and multiplied as a column.  Simplification:
    weights that are all zero (numpy: NaN) are not meaningful in the model. *)
Definition apply_weights (s : st) (res_ : nd) (w : option (seq R)) : res nd :=
  match w with
  | None => Ok res_
  | Some w =>
      k <- n_sensors s ;; t <- n_ts s ;;
      _ <- guard (size w == (k * t)%N) ValueError ;;
      let w' := [seq x / norm2 w | x <- w] in
      if size w' == dim res_ 0 then
        Ok (nd2 (dim res_ 1) [seq [seq p.1 * x | x <- p.2] | p <- zip w' (rows res_)])
      else if dim res_ 0 == 1%N then
        Ok (nd2 (dim res_ 1) [seq [seq c * x | x <- head [::] (rows res_)] | c <- w'])
      else if size w' == 1%N then
        Ok (nd2 (dim res_ 1) [seq [seq head 0 w' * x | x <- r] | r <- rows res_])
      else Err ValueError
  end.

(** base.py:2006-2025: the QoI map.  For an unknown method [qoi] is never assigned. *)
Definition qoi_map (method : string) (r : nd) (n_sub : nat) (k : int) : res nd :=
  if (method =? "wme")%string then
    Ok (nd1 [seq (\sum_(x <- q) x) / Num.sqrt n_sub%:R | q <- rows r])
  else if (method =? "pca")%string then c <- pca r k ;; matmulT r c
  else if (method =? "svd")%string then v <- svd r ;; matmulT r (first_rows v k)
  else Err UnboundLocalError.

(** base.py:1976-2030 mud_problem.  Simplification: the arrays are float arrays. *)
Definition st_mud_problem (s : st) (method : string) (data_weights : option (seq R))
    (sample_weights : option nd) (k : int) (sm tm xm : option mask) : res (dprob R D) :=
  o <- sample_data s sm tm xm ;;
  r <- residuals o (s_sd s) ;;
  r' <- apply_weights s r data_weights ;;
  q <- qoi_map method r' (dim (sd_data o) 0) k ;;
  density_init D trunc (sd_lam o) q false (s_dom s) false sample_weights false (10%:R^-1).

(** ** Histories of calls *)
Variable G : Type.
Variable reseed : int -> res G.
Variable randn : nat -> G -> seq R * G.

(** base.py:1750-1765 measurements_from_reference; [ref] is stored without any check. *)
Definition measurements_from_reference (s : st) (g : G) (ref : option nd) (sd : option R)
    (seed : option int) : (st * G) * res unit :=
  let s := if ref is Some a then with_tv s (NArr a) else s in
  let s := if sd is Some x then with_sd s (Some x) else s in
  match s_tv s, s_sd s with
  | Some (NArr tv), Some x =>
      let: (g', r) := add_noise reseed randn (nd1 (data tv)) x seed g in
      match r with
      | Err e => ((s, g'), Err e)
      | Ok y => let: (s', r') := set_meas s (Some (Nd (Nd.shape tv) (data y))) in ((s', g'), r')
      end
  | Some NObj, Some _ =>
      let: (g', r) := add_noise reseed randn (nd1 [:: 0]) 0 seed g in
      ((s, g'), if r is Err e then Err e else Err TypeError)
  | _, _ => ((s, g), Err AttributeError)
  end.

Inductive sop :=
  | SLam of nd | SLref of nd | SDomain of nd | SData of nd | SMeas of nd | STv of nd
  | SDist of string | SSens of option nd | STimes of option nd | SSd of option R
  | SRef of option nd & option R & option int
  | SLoad of dset & (string -> nameval).

Definition keep_g (g : G) (m : st * res unit) : (st * G) * res unit := ((m.1, g), m.2).
Definition srun1 (sg : st * G) (o : sop) : (st * G) * res unit :=
  let: (s, g) := sg in
  match o with
  | SLam a => keep_g g (set_lam s a)
  | SLref a => keep_g g (set_lref s a)
  | SDomain a => keep_g g (set_domain s a)
  | SData a => keep_g g (set_data s a)
  | SMeas a => keep_g g (set_meas s (Some a))
  | STv a => keep_g g (set_tv s (Some a))
  | SDist x => keep_g g (set_dist s x)
  | SSens a => keep_g g (with_sens s a, Ok tt)
  | STimes a => keep_g g (with_times s a, Ok tt)
  | SSd x => keep_g g (with_sd s x, Ok tt)
  | SRef a x k => measurements_from_reference s g a x k
  | SLoad ds names => keep_g g (load s ds names)
  end.
(** A history: exceptions are caught by the caller, who goes on. *)
Definition srun (sg : st * G) (h : seq sop) : st * G := foldl (fun sg o => (srun1 sg o).1) sg h.
End St.
