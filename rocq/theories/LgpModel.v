(** Model of LinearGaussianProblem (base.py:977-1237), funs.updated_cov and the
    solver wrappers of funs.py, and norm.py. *)
Set Warnings "-notation-overridden,-ambiguous-paths".
From mathcomp Require Import all_ssreflect all_algebra.
From Coq Require Import String.
From Verif Require Import Py Nd Spec LinAlg Dmx.
Set Implicit Arguments. Unset Strict Implicit. Unset Printing Implicit Defensive.
Import Order.Theory GRing.Theory Num.Theory.
Local Open Scope ring_scope.

Section Lgp.
Variable R : realFieldType.
Notation dmx := (dmx R).

(** Instance attributes of LinearGaussianProblem: base.py:1047-1071 (inputs) and
    those created by [solve] (base.py:1156-1174); [None] = attribute not created
    yet.  [self.sol] (base.py:1071) is always [None] and is handled in
    [getattribute]. *)
Record lgp := Lgp {
  lA : dmx; lb : dmx; ly : dmx; lmean : dmx; lcovi : dmx; lcovo : dmx;
  lalpha : R;
  l_mud : option dmx; l_mud_alt : option dmx; l_up_cov : option dmx;
  l_map : option dmx; l_cov_p : option dmx; l_ls : option dmx }.

(** base.py:1036-1071 LinearGaussianProblem.__init__.
    [A], [b], [y], [mean_i] are arbitrary arrays (any number of dimensions),
    [None] where Python's default [None] is used.
    Simplifications: [cov_i], [cov_o] are 2-D arrays (the code stores whatever it
    is given without looking at it) and [alpha] is a scalar. *)
Definition lgp_init (A : nd R) (b y mean_i : option (nd R))
    (cov_i cov_o : option dmx) (alpha : option R) : res lgp :=
  (* 1047-1048 *)
  A2 <- (if ndim A == 2%N then Ok (dmx_of A)
         else rmap dmx_of (np_reshape [:: Some 1%N; None] A)) ;;
  let ns := dr A2 in let di := dc A2 in
  (* 1052-1058 *)
  let col o n := match o with
                 | None => dzeros n 1
                 | Some v => dcol (data v)
                 end in
  let b' := col b ns in
  let y' := col y ns in
  let m' := col mean_i di in
  let ci := odflt (deye di) cov_i in
  let co := odflt (deye ns) cov_o in
  (* 1061 *)
  let al := odflt 1 alpha in
  (* 1064-1068 *)
  if ns != dr y' then Err ValueError else
  Ok (Lgp A2 b' y' m' ci co al None None None None None None).

(** Values [solve] can hand back through [__getattribute__]. *)
Inductive pyval :=
  | VArr of dmx | VTup of seq dmx | VNum of R | VNat of nat | VNone
  | VMethod of string.

(** base.py:1180 [self.__getattribute__(method)]: instance attributes, the three
    properties (1074-1084) and the methods of the class.  Dunder names inherited
    from [object] are not modelled. *)
Definition getattribute (p : lgp) (n : string) : res pyval :=
  let opt o := if o is Some v then Ok (VArr v) else Err AttributeError in
  if String.eqb n "A" then Ok (VArr (lA p)) else
  if String.eqb n "b" then Ok (VArr (lb p)) else
  if String.eqb n "y" then Ok (VArr (ly p)) else
  if String.eqb n "mean_i" then Ok (VArr (lmean p)) else
  if String.eqb n "cov_i" then Ok (VArr (lcovi p)) else
  if String.eqb n "cov_o" then Ok (VArr (lcovo p)) else
  if String.eqb n "alpha" then Ok (VNum (lalpha p)) else
  if String.eqb n "sol" then Ok VNone else
  if String.eqb n "mud" then opt (l_mud p) else
  if String.eqb n "mud_alt" then opt (l_mud_alt p) else
  if String.eqb n "up_cov" then opt (l_up_cov p) else
  if String.eqb n "map" then opt (l_map p) else
  if String.eqb n "cov_p" then opt (l_cov_p p) else
  if String.eqb n "ls" then opt (l_ls p) else
  if String.eqb n "n_params" then Ok (VNat (dc (lA p))) else
  if String.eqb n "n_features" then Ok (VNat (dc (ly p))) else
  if String.eqb n "n_samples" then Ok (VNat (dr (ly p))) else
  if has (String.eqb n)
       [:: "compute_functionals"; "solve"; "updated_cov"; "plot_sol";
           "plot_contours"; "plot_fun_contours"]%string
  then Ok (VMethod n) else Err AttributeError.

(** base.py:1229-1235 / funs.py:89-95, after the defaults are filled in. *)
Definition updated_cov_core (X init_cov data_cov : dmx) : res dmx :=
  XC <- dmul X init_cov ;;
  pred_cov <- dmul XC (dtr X) ;;
  let inv_pred_cov := dpinv pred_cov in
  CXt <- dmul init_cov (dtr X) ;;
  K <- dmul CXt inv_pred_cov ;;
  D <- dsub pred_cov data_cov ;;
  KD <- dmul K D ;;
  KDK <- dmul KD (dtr K) ;;
  dsub init_cov KDK.

(** base.py:1182-1237 LinearGaussianProblem.updated_cov. *)
Definition lgp_updated_cov (p : lgp) (A init_cov data_cov : option dmx) : res dmx :=
  let X := odflt (lA p) A in
  ic <- (match init_cov with
         | None => Ok (lcovi p)
         | Some c => _ <- guard (dc X == dc c) AssertionError ;; Ok c
         end) ;;
  oc <- (match data_cov with
         | None => Ok (lcovo p)
         | Some c => _ <- guard (dr X == dc c) AssertionError ;; Ok c
         end) ;;
  updated_cov_core X ic oc.

(** funs.py:50-97 updated_cov. *)
Definition updated_cov (X : dmx) (init_cov data_cov : option dmx) : res dmx :=
  ic <- (match init_cov with
         | None => Ok (deye (dc X))
         | Some c => _ <- guard (dc X == dc c) AssertionError ;; Ok c
         end) ;;
  oc <- (match data_cov with
         | None => Ok (deye (dr X))
         | Some c => _ <- guard (dr X == dc c) AssertionError ;; Ok c
         end) ;;
  updated_cov_core X ic oc.

(** base.py:1137-1142: the leading [od] rows/blocks. *)
Record truncated := Trunc { tA : dmx; tb : dmx; ty : dmx; tco : dmx }.
Definition truncate (p : lgp) (od : option int) : truncated :=
  let k n := slice_len n (Some (odflt (Posz (dr (lA p))) od)) in
  Trunc (drows (k (dr (lA p))) (lA p)) (drows (k (dr (lb p))) (lb p))
        (drows (k (dr (ly p))) (ly p))
        (dblock (k (dr (lcovo p))) (k (dc (lcovo p))) (lcovo p)).

(** base.py:1153-1156 *)
Definition mud_step (t : truncated) (a_cov_i z mean : dmx) : res dmx :=
  AC <- dmul (tA t) a_cov_i ;;
  P <- dmul AC (dtr (tA t)) ;;
  let inv_pred_cov := dpinv P in
  CAt <- dmul a_cov_i (dtr (tA t)) ;;
  update <- dmul CAt inv_pred_cov ;;
  uz <- dmul update z ;;
  dadd mean uz.

(** base.py:1158-1162; returns [(mud_alt, up_cov)]. *)
Definition mud_alt_step (p : lgp) (t : truncated) (a_cov_i z mean : dmx)
  : res (dmx * dmx) :=
  up <- lgp_updated_cov p (Some (tA t)) (Some a_cov_i) (Some (tco t)) ;;
  UAt <- dmul up (dtr (tA t)) ;;
  ci <- dinv (tco t) ;;
  update <- dmul UAt ci ;;
  uz <- dmul update z ;;
  m <- dadd mean uz ;;
  Ok (m, up).

(** base.py:1164-1169; returns [(map, cov_p)]. *)
Definition map_step (t : truncated) (a_cov_i z mean : dmx) : res (dmx * dmx) :=
  co_inv <- dinv (tco t) ;;
  AtCo <- dmul (dtr (tA t)) co_inv ;;
  AtCoA <- dmul AtCo (tA t) ;;
  ci <- dinv a_cov_i ;;
  H <- dadd AtCoA ci ;;
  cov_p <- dinv H ;;
  CpAt <- dmul cov_p (dtr (tA t)) ;;
  update <- dmul CpAt co_inv ;;
  uz <- dmul update z ;;
  m <- dadd mean uz ;;
  Ok (m, cov_p).

(** base.py:1171-1173 *)
Definition ls_step (t : truncated) (mean_o : dmx) : res dmx :=
  dmul (dpinv (tA t)) mean_o.

Definition set_mud (p : lgp) v := Lgp (lA p) (lb p) (ly p) (lmean p) (lcovi p)
  (lcovo p) (lalpha p) (Some v) (l_mud_alt p) (l_up_cov p) (l_map p) (l_cov_p p) (l_ls p).
Definition set_mud_alt (p : lgp) v u := Lgp (lA p) (lb p) (ly p) (lmean p) (lcovi p)
  (lcovo p) (lalpha p) (l_mud p) (Some v) (Some u) (l_map p) (l_cov_p p) (l_ls p).
Definition set_map (p : lgp) v c := Lgp (lA p) (lb p) (ly p) (lmean p) (lcovi p)
  (lcovo p) (lalpha p) (l_mud p) (l_mud_alt p) (l_up_cov p) (Some v) (Some c) (l_ls p).
Definition set_ls (p : lgp) v := Lgp (lA p) (lb p) (ly p) (lmean p) (lcovi p)
  (lcovo p) (lalpha p) (l_mud p) (l_mud_alt p) (l_up_cov p) (l_map p) (l_cov_p p) (Some v).

(** A step of [solve] guarded by [if method == name or method == "all"]: run the
    computation, store its result in the object, or stop with the exception and
    the object as it is. *)
Definition stage T (on : bool) (c : res T) (store : lgp -> T -> lgp)
    (k : lgp -> lgp * res pyval) (p : lgp) : lgp * res pyval :=
  if on then match c with Ok v => k (store p v) | Err e => (p, Err e) end
  else k p.

(** base.py:1131-1180 LinearGaussianProblem.solve.  Returns the object after the
    call and the outcome. *)
Definition solve (p0 : lgp) (method : string) (od : option int)
  : lgp * res pyval :=
  let t := truncate p0 od in
  let want m := String.eqb method m || String.eqb method "all" in
  match (mean_o <- dsub (ty t) (tb t) ;;
         Am <- dmul (tA t) (lmean p0) ;;
         z <- dsub mean_o Am ;; Ok (mean_o, z)) with
  | Err e => (p0, Err e)
  | Ok (mean_o, z) =>
    let ac := dscale (lalpha p0) (lcovi p0) in
    stage (want "mud"%string) (mud_step t ac z (lmean p0)) set_mud (
    stage (want "mud_alt"%string) (mud_alt_step p0 t ac z (lmean p0))
          (fun p v => set_mud_alt p v.1 v.2) (
    stage (want "map"%string) (map_step t ac z (lmean p0))
          (fun p v => set_map p v.1 v.2) (
    stage (want "ls"%string) (ls_step t mean_o) set_ls (fun p =>
      if String.eqb method "all" then
        (p, match l_mud p, l_map p, l_ls p with
            | Some a, Some b, Some c => Ok (VTup [:: a; b; c])
            | _, _, _ => Err AttributeError
            end)
      else (p, getattribute p method))))) p0
  end.

(** base.py:1096-1097 and norm.py:4-27 inner_product:
    [np.sum(X * (inv(mat) @ X), axis=0)]. *)
Definition inner_product (X mat : dmx) : res (seq R) :=
  M <- dinv mat ;;
  Y <- dmul M X ;;
  XY <- dhad X Y ;;
  Ok (dsum0 XY).

(** Result of compute_functionals: one 1-D array or the 5-tuple. *)
Inductive funval := FArr of seq R | FTup of seq (seq R).

(** base.py:1086-1129 LinearGaussianProblem.compute_functionals. *)
Definition compute_functionals (p : lgp) (X : dmx) (terms : string) : res funval :=
  mean_o <- dsub (ly p) (lb p) ;;
  AX <- dmul (lA p) (dtr X) ;;
  AXb <- dadd AX (lb p) ;;
  r <- dsub AXb (dtr mean_o) ;;
  data_term <- inner_product r (lcovo p) ;;
  if String.eqb terms "data" then Ok (FArr data_term) else
  d <- dsub X (dtr (lmean p)) ;;
  reg0 <- inner_product (dtr d) (lcovi p) ;;
  let reg_term := vscale (lalpha p) reg0 in
  if String.eqb terms "reg" then Ok (FArr reg_term) else
  d' <- dsub X (dtr (lmean p)) ;;
  Ad <- dmul (lA p) (dtr d') ;;
  AC <- dmul (lA p) (lcovi p) ;;
  ACA <- dmul AC (dtr (lA p)) ;;
  dc0 <- inner_product Ad ACA ;;
  let dc_term := vscale (lalpha p) dc0 in
  if String.eqb terms "dc_term" then Ok (FArr dc_term) else
  reg_m <- vsub reg_term dc_term ;;
  if String.eqb terms "reg_m" then Ok (FArr reg_m) else
  bayes_fun <- vadd data_term reg_term ;;
  if String.eqb terms "bayes" then Ok (FArr bayes_fun) else
  dc_fun <- vsub bayes_fun dc_term ;;
  if String.eqb terms "dc" then Ok (FArr dc_fun) else
  Ok (FTup [:: data_term; reg_term; dc_term; bayes_fun; dc_fun]).

(** ** norm.py *)

(** A covariance argument: Python number or 2-D array (norm.py:41, 48, 55). *)
Inductive covarg := CNum of R | CMat of dmx.
Definition cov_or_eye (c : covarg) (n : nat) : dmx :=
  match c with CNum r => dscale r (deye n) | CMat m => m end.

(** norm.py:40-44 *)
Definition norm_input (inputs mean : dmx) (cov : covarg) : res (seq R) :=
  d <- dsub inputs (dtr mean) ;;
  inner_product (dtr d) (cov_or_eye cov (dr mean)).

(** norm.py:47-51; [observed_mean] is an array, or the integer default 0, which
    has no attribute [T]. *)
Definition norm_data (op inputs dat : dmx) (obs_mean : option dmx) (cov : covarg)
  : res (seq R) :=
  AX <- dmul op (dtr inputs) ;;
  AXb <- dadd AX dat ;;
  match obs_mean with
  | None => Err AttributeError
  | Some om =>
      X <- dsub AXb (dtr om) ;;
      inner_product X (cov_or_eye cov (dr dat))
  end.

(** norm.py:54-60 *)
Definition norm_predicted (op inputs mean : dmx) (cov : covarg) : res (seq R) :=
  let c := cov_or_eye cov (dr mean) in
  OC <- dmul op c ;;
  P <- dmul OC (dtr op) ;;
  d <- dsub inputs (dtr mean) ;;
  X <- dmul op (dtr d) ;;
  inner_product X P.

(** norm.py:30-37 *)
Definition full_functional (op inputs dat mean : dmx) (cov : covarg)
    (obs_mean : option dmx) (obs_cov : covarg) : res (seq R) :=
  i <- norm_input inputs mean cov ;;
  d <- norm_data op inputs dat obs_mean obs_cov ;;
  s <- vadd i d ;;
  p <- norm_predicted op inputs mean cov ;;
  vsub s p.

(** ** solver wrappers of funs.py *)

(** What [mud_sol] and friends return: the column or its [ravel()], depending on
    the dimensionality of the [y] argument ([y = None] has ndim 0). *)
Inductive solval := SCol of dmx | SFlat of seq R.
Definition shape_like (y : option (nd R)) (v : dmx) : solval :=
  if (if y is Some y' then (1 < ndim y')%N else false) then SCol v
  else SFlat (dravel v).

(** funs.py:100-113 lin_prob *)
Definition lin_prob (A : nd R) (b y mean : option (nd R)) (cov data_cov : option dmx)
  (alpha : option R) : res lgp := lgp_init A b y mean cov data_cov alpha.

Definition as_arr (v : pyval) : res dmx :=
  match v with VArr m => Ok m | _ => Err TypeError end.

(** funs.py:116-125 mud_sol *)
Definition mud_sol (A : nd R) (b y mean : option (nd R)) (cov data_cov : option dmx)
  : res solval :=
  lp <- lin_prob A b y mean cov data_cov None ;;
  v <- (solve lp "mud" None).2 ;; m <- as_arr v ;; Ok (shape_like y m).

(** funs.py:128-138 mud_sol_with_cov *)
Definition mud_sol_with_cov (A : nd R) (b y mean : option (nd R))
    (cov data_cov : option dmx) : res (solval * dmx) :=
  lp <- lin_prob A b y mean cov data_cov None ;;
  let r := solve lp "mud_alt" None in
  v <- r.2 ;; m <- as_arr v ;;
  if l_up_cov r.1 is Some u then Ok (shape_like y m, u) else Err AttributeError.

(** funs.py:141-147 map_sol *)
Definition map_sol (A : nd R) (b y mean : option (nd R)) (cov data_cov : option dmx)
  (w : R) : res solval :=
  lp <- lin_prob A b y mean cov data_cov (Some w) ;;
  v <- (solve lp "map" None).2 ;; m <- as_arr v ;; Ok (shape_like y m).

(** funs.py:150-156 map_sol_with_cov *)
Definition map_sol_with_cov (A : nd R) (b y mean : option (nd R))
    (cov data_cov : option dmx) (w : R) : res (solval * dmx) :=
  lp <- lin_prob A b y mean cov data_cov (Some w) ;;
  let r := solve lp "map" None in
  v <- r.2 ;; m <- as_arr v ;;
  if l_cov_p r.1 is Some u then Ok (shape_like y m, u) else Err AttributeError.

End Lgp.
