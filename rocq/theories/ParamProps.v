(** Property C150: what DensityProblem.plot_param_space draws. *)
Set Warnings "-notation-overridden,-ambiguous-paths".
From Coq Require Import String ZArith.
From mathcomp Require Import all_ssreflect all_algebra.
From Verif Require Import Py Nd Xnum XnumProofs UtilModel DensityModel NdProofs DensityProps2 DensityProps3 UtilModel2 PlotModel PlotProps
  StModel DrawModel PoisModel StExModel PoisExModel PoisExProps PoisExProps3 SimpleModel CompModel CompProps.
Set Implicit Arguments. Unset Strict Implicit. Unset Printing Implicit Defensive.
Import Order.Theory GRing.Theory Num.Theory.
Local Open Scope ring_scope.

Section ParamProps.
Variable R : rcfType.
Notation xnum := (xnum R).
Notation nd := (nd R).
Notation mark := (mark R).
Variables (D KW BW : Type) (pdf : D -> KW -> nd -> res (pdfval xnum)) (nokw : KW) (nobw : BW)
  (uniform : seq R -> seq R -> D) (norm01 : D) (kde : nd -> BW -> seq xnum -> res D)
  (kde_pdf : D -> nd -> res (seq xnum)) (trunc : R -> R).
(** Oracles: [d.pdf] and the call of a kernel density estimate at the points of a grid. *)
Variable gpdf : D -> seq (seq R) -> res (seq (seq R)).
Variable geval : D -> seq (seq R) -> res (seq R).
Notation dprob := (dprob R D).
Notation estimate := (estimate pdf nokw nobw uniform norm01 kde kde_pdf).
Notation dist_curve := (dist_curve gpdf geval).
Notation density := (density gpdf geval).
(** plot_param_space with [aff] points. *)
Notation param_plot aff := (param_plot pdf nokw nobw uniform norm01 kde kde_pdf trunc
  (fun src d dom idx => dist_curve src (Some d) dom idx aff)).
Notation any_plot curve := (PoisExModel.param_plot pdf nokw nobw uniform norm01 kde kde_pdf trunc curve).
Implicit Types (s : dprob) (a : ppargs R) (curve : string -> D -> seq (R * R) -> int -> res (seq R * seq R)).

(** ** Specification *)
(** The ranges plotted over, and the problem afterwards: the range given; else the stored domain,
    each interval of which is made longer on both sides by pad_ratio times its length, in place. *)
Definition plotted_range s a s1 (xr : seq (R * R)) : Prop :=
  match pp_range a with
  | Some r => s1 = s /\ xr = r
  | None => exists B, [/\ widened (pp_pad a) (ddom s) B, s1 = put_dom s B &
      xr = [seq (nth 0 r 0 - pp_pad a * (nth 0 r 1 - nth 0 r 0), nth 0 r 1 + pp_pad a * (nth 0 r 1 - nth 0 r 0)) | r <- rows (ddom s)]]
  end.
(** The weights of the estimate drawn as "updated": update ratio times sample weight; before a fit
    equal weights, whatever weights were set. *)
Definition update_weights s (w : seq xnum) : Prop :=
  match d_r s with
  | Some r => [/\ size r = size (d_w s), size w = size r &
               forall i, (i < size r)%N -> nth NaN w i = xmul (nth NaN r i) (nth NaN (d_w s) i)]
  | None => w = nseq (dim (dX s) 0) (Fin 1)
  end.
Definition asked (b : bool) (m : mark) : seq mark := if b then [:: m] else [::].
(** The default range can be built: a float array with two columns. *)
Definition two_columns (B : nd) : Prop := [/\ nd_wf B, ndim B = 2%N & dim B 1 = 2%N].

(** ** The range *)
Lemma stretched_in (q : R) (B B' : nd) : widened q B B' ->
  @intervals R B' = [seq (nth 0 r 0 - q * (nth 0 r 1 - nth 0 r 0), nth 0 r 1 + q * (nth 0 r 1 - nth 0 r 0)) | r <- rows B].
Proof.
move=> [_ sh h]; have sz : size (rows B') = size (rows B) by rewrite !size_rows /dim sh.
apply: (@eq_from_nth _ (0, 0)); first by rewrite !size_map sz.
move=> j; rewrite size_map sz => hj; rewrite (nth_map [::]) ?sz // (nth_map [::]) // h //; by rewrite -size_rows.
Qed.

Definition body curve s idx a xr : dprob * res (seq mark) :=
  sbind (DensityModel.lift s (of_opt AssertionError (d_in_dist s))) (fun s d =>
  sbind (DensityModel.lift s (if pp_in a then c <- curve "pdf"%string d xr idx ;; Ok [:: DensityCurve "in"%string c.1 c.2] else Ok [::])) (fun s m1 =>
  sbind (DensityModel.lift s (if pp_up a then k <- updated_kde nobw kde s ;; c <- curve "kde"%string k xr idx ;; Ok [:: DensityCurve "up"%string c.1 c.2] else Ok [::])) (fun s m2 =>
  sbind (DensityModel.lift s (if pp_win a then k <- kde (dX s) nobw (d_w s) ;; c <- curve "kde"%string k xr idx ;; Ok [:: DensityCurve "win"%string c.1 c.2] else Ok [::])) (fun s m3 =>
  sbind (if pp_mud a then sbind (estimate s) (fun s m => DensityModel.lift s (x <- at_idx m idx ;; Ok [:: VLine "mud"%string x])) else (s, Ok [::])) (fun s m4 =>
  DensityModel.lift s (m5 <- (if pp_true a is Some t then
                   if pp_true_on a then x <- at_idx t idx ;; Ok [:: VLine "true"%string x] else Ok [::]
                 else Ok [::]) ;;
          Ok (m1 ++ m2 ++ m3 ++ m4 ++ m5))))))).

Lemma rangeE s a : (pp_range a = None -> two_columns (ddom s) /\ d_int s = false) ->
  exists s1 xr, plotted_range s a s1 xr /\ forall curve idx, any_plot curve s idx a = body curve s1 idx a xr.
Proof.
move=> h; rewrite /plotted_range /PoisExModel.param_plot; case: (pp_range a) h => [r|] h; first by exists s, r.
have [[wf n2 d2] ei] := h erefl; have [B [eB wB]] := @fitE R D trunc s (pp_pad a) wf n2 d2 ei.
exists (put_dom s B), (intervals B); split; first by exists B; rewrite (stretched_in wB).
by move=> curve idx; rewrite eB; cbn [sbind].
Qed.

Lemma updatedE s w k : update_weights s w -> kde (dX s) nobw w = Ok k -> updated_kde nobw kde s = Ok k.
Proof.
rewrite /update_weights /updated_kde; case: (d_r s) => [r [s1 s2 h]|->] //.
rewrite /xvbop s1 eqxx; cbn [rbind].
rewrite (_ : [seq xmul p.1 p.2 | p <- zip r (d_w s)] = w) //.
apply: (@eq_from_nth _ NaN); first by rewrite size_map size_zip s1 s2 s1 minnn.
move=> i; rewrite size_map size_zip s1 minnn => hi.
by rewrite (nth_map (NaN, NaN)) ?size_zip ?s1 ?minnn // nth_zip ?s1 // h // s1.
Qed.

(** C150: what is drawn. *)
Theorem C150_draws s idx a k (aff : nat) d f wu eu fu ew fw x s2 : let n := if pp_range a is Some r then size r else dim (ddom s) 0 in
  (pp_range a = None -> two_columns (ddom s) /\ d_int s = false) ->
  py_index n idx = Ok k -> (2 < aff)%N -> d_in_dist s = Some d ->
  (pp_in a -> density n "pdf" d f) ->
  (pp_up a -> [/\ update_weights s wu, kde (dX s) nobw wu = Ok eu & density n "kde" eu fu]) ->
  (pp_win a -> kde (dX s) nobw (d_w s) = Ok ew /\ density n "kde" ew fw) ->
  exists s1 xr, plotted_range s a s1 xr /\
  ((pp_mud a -> estimate s1 = (s2, Ok x) /\ size x = n) ->
   (if pp_true a is Some t then size t = n else True) ->
   param_plot aff s idx a =
   (if pp_mud a then s2 else s1,
    Ok (asked (pp_in a) (line_of "in" (scaled_curve xr aff f k (drawn "pdf" n k))) ++
        asked (pp_up a) (line_of "up" (scaled_curve xr aff fu k (drawn "kde" n k))) ++
        asked (pp_win a) (line_of "win" (scaled_curve xr aff fw k (drawn "kde" n k))) ++
        asked (pp_mud a) (VLine "mud"%string (nth 0 x k)) ++
        (if pp_true a is Some t then asked (pp_true_on a) (VLine "true"%string (nth 0 t k)) else [::])))).
Proof.
move=> n hr ek ha ed h1 h2 h3; have [s1 [xr [pr E]]] := rangeE hr; exists s1, xr; split=> // h4 h5.
have sx : size xr = n.
  by move: pr; rewrite /plotted_range /n; case: (pp_range a) => [r [_ ->]|[B [_ _ ->]]] //; rewrite size_map size_rows.
have [eX er ew' ed'] : [/\ dX s1 = dX s, d_r s1 = d_r s, d_w s1 = d_w s & d_in_dist s1 = d_in_dist s].
  by move: pr; rewrite /plotted_range; case: (pp_range a) => [r [-> _]|[B [_ -> _]]].
have C lbl src d' f' : src = "pdf"%string \/ src = "kde"%string -> density n src d' f' ->
   (c <- dist_curve src (Some d') xr idx aff ;; Ok [:: DensityCurve lbl c.1 c.2]) =
   Ok [:: line_of lbl (scaled_curve xr aff f' k (drawn src n k))].
  by move=> hs; rewrite -sx in ek * => hd; apply: draw_distE.
rewrite E /body /DensityModel.lift ed' ed; cbn [of_opt sbind].
have -> : (if pp_in a then c <- dist_curve "pdf" (Some d) xr idx aff ;; Ok [:: DensityCurve "in"%string c.1 c.2] else Ok [::]) =
   Ok (asked (pp_in a) (line_of "in" (scaled_curve xr aff f k (drawn "pdf" n k)))).
  by case: (pp_in a) h1 => // /(_ isT); apply: C; left.
cbn [sbind].
have -> : (if pp_up a then k0 <- updated_kde nobw kde s1 ;; c <- dist_curve "kde" (Some k0) xr idx aff ;; Ok [:: DensityCurve "up"%string c.1 c.2] else Ok [::]) =
   Ok (asked (pp_up a) (line_of "up" (scaled_curve xr aff fu k (drawn "kde" n k)))).
  case: (pp_up a) h2 => // /(_ isT) [wE kE dE].
  have -> : updated_kde nobw kde s1 = Ok eu by apply: (updatedE (w := wu)); rewrite ?/update_weights ?er ?ew' eX.
  by cbn [rbind]; apply: C => //; right.
cbn [sbind].
have -> : (if pp_win a then k0 <- kde (dX s1) nobw (d_w s1) ;; c <- dist_curve "kde" (Some k0) xr idx aff ;; Ok [:: DensityCurve "win"%string c.1 c.2] else Ok [::]) =
   Ok (asked (pp_win a) (line_of "win" (scaled_curve xr aff fw k (drawn "kde" n k)))).
  case: (pp_win a) h3 => // /(_ isT) [kE dE]; rewrite eX ew' kE; cbn [rbind]; by apply: C => //; right.
cbn [sbind].
have A (v : seq R) : size v = n -> at_idx v idx = Ok (nth 0 v k) by move=> sv; rewrite /at_idx sv ek.
have ET : (if pp_true a is Some t then if pp_true_on a then x0 <- at_idx t idx ;; Ok [:: @VLine R "true" x0] else Ok [::] else Ok [::]) =
  Ok (if pp_true a is Some t then asked (pp_true_on a) (VLine "true"%string (nth 0 t k)) else [::]).
  by case: (pp_true a) h5 => [t st|] //; rewrite A //; case: (pp_true_on a).
case: (pp_mud a) h4 => [/(_ isT) [eE xE]|_]; last by cbn [sbind asked]; rewrite ET; cbn [rbind].
by rewrite eE; cbn [sbind]; rewrite A //; cbn [rbind sbind asked]; rewrite ET; cbn [rbind].
Qed.

(** C150: before a fit the weights of the samples do not show in the curve of the updated density:
    with any other weights the same is drawn. *)
Definition reweighted s w : dprob := DP (dX s) (dy s) (ddom s) (d_int s) w (d_r s) (d_up s) (d_in s) (d_pr s)
  (d_ob s) (d_in_dist s) (d_pr_dist s) (d_ob_dist s).
Theorem C150_before_fit curve s idx a w : d_r s = None -> pp_win a = false -> pp_mud a = false ->
  (any_plot curve (reweighted s w) idx a).2 = (any_plot curve s idx a).2.
Proof.
move=> er nw nm.
have B s1 xr : d_r s1 = None -> (body curve (reweighted s1 w) idx a xr).2 = (body curve s1 idx a xr).2.
  move=> er1; rewrite /body /DensityModel.lift nw nm /reweighted; cbn [d_in_dist dX].
  case: (d_in_dist s1) => [d|//]; cbn [of_opt sbind]; case: (if pp_in a then _ else _) => [m1|//]; cbn [sbind].
  rewrite /updated_kde; cbn [d_r dX]; rewrite er1; cbn [rbind dX].
  case: (if pp_up a then _ else _) => [m2|//]; cbn [sbind].
  by [].
rewrite /PoisExModel.param_plot; case: (pp_range a) => [r|]; first exact: B.
rewrite {1}/reweighted; cbn [d_int ddom]; case: (fit_domain _ _ _ _) => [Bd|e] //.
by have := B (put_dom s Bd) (intervals Bd) er.
Qed.

(** C150: without an initial distribution nothing is drawn: AssertionError, and the stored domain
    is widened all the same. *)
Theorem C150_no_initial curve s idx a : (pp_range a = None -> two_columns (ddom s) /\ d_int s = false) -> d_in_dist s = None ->
  exists s1 xr, plotted_range s a s1 xr /\ any_plot curve s idx a = (s1, Err AssertionError).
Proof.
move=> hr en; have [s1 [xr [pr E]]] := rangeE hr; exists s1, xr; split=> //; rewrite E /body.
have -> : d_in_dist s1 = None by move: pr; rewrite /plotted_range; case: (pp_range a) => [r [-> _]|[B [_ -> _]]].
by [].
Qed.

(** C150: without the MUD point only the stored domain changes, and only without a range. *)
Theorem C150_state curve s idx a : pp_mud a = false ->
  same_but_domain s (any_plot curve s idx a).1 /\ (pp_range a <> None -> (any_plot curve s idx a).1 = s).
Proof.
move=> nm.
have B s1 xr : (body curve s1 idx a xr).1 = s1.
  rewrite /body /DensityModel.lift nm; case: (of_opt _ _) => [d|//]; cbn [sbind]; case: (if pp_in a then _ else _) => [m1|//]; cbn [sbind].
  by case: (if pp_up a then _ else _) => [m2|//]; cbn [sbind]; case: (if pp_win a then _ else _) => [m3|//].
rewrite /PoisExModel.param_plot; case: (pp_range a) => [r|].
  by cbn [sbind]; rewrite -/(body curve s idx a r) B; split=> //; rewrite /same_but_domain put_dom_id.
case: (fit_domain _ _ _ _) => [Bd|e]; last by split=> //; rewrite /same_but_domain /= put_dom_id.
by cbn [sbind]; rewrite -/(body curve (put_dom s Bd) idx a (intervals Bd)) B.
Qed.

(** C150: a parameter that the ranges do not have: IndexError if a curve is drawn, and, if only
    lines are drawn, from the MUD point or the true value. *)
Theorem C150_bad_index s idx a (aff : nat) d : let n := if pp_range a is Some r then size r else dim (ddom s) 0 in
  (pp_range a = None -> two_columns (ddom s) /\ d_int s = false) -> n <> 0%N ->
  py_index n idx = Err IndexError -> d_in_dist s = Some d ->
  (pp_in a -> (param_plot aff s idx a).2 = Err IndexError) /\
  (forall t, pp_in a = false -> pp_up a = false -> pp_win a = false -> pp_mud a = false -> pp_true a = Some t -> pp_true_on a ->
     size t = n -> (param_plot aff s idx a).2 = Err IndexError).
Proof.
move=> n hr n0 ek ed; have [s1 [xr [pr E]]] := rangeE hr; rewrite !E.
have sx : size xr = n.
  by move: pr; rewrite /plotted_range /n; case: (pp_range a) => [r [_ ->]|[B [_ _ ->]]] //; rewrite size_map size_rows.
have ed' : d_in_dist s1 = Some d by move: pr; rewrite /plotted_range; case: (pp_range a) => [r [-> _]|[B [_ -> _]]].
rewrite /body ed' /DensityModel.lift; cbn [of_opt sbind]; split.
  move=> ->; have d0 : xr != [::] by rewrite -size_eq0 sx; apply/eqP.
  have [mesh [grid [h1 _ _ _ _]]] := buildE aff d0.
  by rewrite /CompModel.dist_curve /plot_dist h1; cbn [rbind]; rewrite sx ek.
move=> t -> -> -> -> -> -> st; cbn [sbind].
by rewrite /at_idx st ek.
Qed.

(** C150: the call is one of the calls of the histories of C37, C38, C42 and C44. *)
Theorem C150_refines curve s idx a : exists draw,
  DensityModel.plot_param_space pdf nokw nobw uniform norm01 kde kde_pdf trunc draw s (isSome (pp_range a)) (pp_pad a)
    (pp_in a) (pp_up a) (pp_win a) (pp_mud a) =
  ((any_plot curve s idx a).1, rmap (fun _ => tt) (any_plot curve s idx a).2).
Proof.
pose void A (r : res A) : res unit := rmap (fun _ => tt) r.
pose tr := (if pp_true a is Some t then if pp_true_on a then x <- at_idx t idx ;; Ok [:: @VLine R "true" x] else Ok [::] else Ok [::]).
pose xr s := if pp_range a is Some r then r else intervals (ddom s).
exists (fun i s => match i with
  | 0%N => void _ (d <- of_opt AssertionError (d_in_dist s) ;; curve "pdf"%string d (xr s) idx)
  | 1%N => void _ (k <- updated_kde nobw kde s ;; curve "kde"%string k (xr s) idx)
  | 2%N => void _ (k <- kde (dX s) nobw (d_w s) ;; curve "kde"%string k (xr s) idx)
  | 3%N => void _ (m <- (estimate s).2 ;; at_idx m idx)
  | _ => void _ tr
  end).
set draw := (fun i s => _).
have B s1 xr1 : xr s1 = xr1 ->
  sbind (DensityModel.lift s1 (guard (isSome (d_in_dist s1)) AssertionError)) (fun s _ =>
  sbind (DensityModel.lift s (if pp_in a then draw 0%N s else Ok tt)) (fun s _ =>
  sbind (DensityModel.lift s (if pp_up a then draw 1%N s else Ok tt)) (fun s _ =>
  sbind (DensityModel.lift s (if pp_win a then draw 2%N s else Ok tt)) (fun s _ =>
  sbind (if pp_mud a then sbind (estimate s) (fun s _ => DensityModel.lift s (draw 3%N s)) else (s, Ok tt))
        (fun s _ => DensityModel.lift s (draw 4%N s)))))) =
  ((body curve s1 idx a xr1).1, void _ (body curve s1 idx a xr1).2).
  move=> <-; rewrite /body /DensityModel.lift /draw.
  case ed : (d_in_dist s1) => [d|] //; cbn [isSome guard of_opt sbind rbind].
  case: (pp_in a); [rewrite ?ed; cbn [of_opt rbind]; case: (curve _ _ _ _) => [c|e] //|]; cbn [rbind sbind void rmap];
  (case: (pp_up a); [case: (updated_kde _ _ _) => [ku|e] //; cbn [rbind]; case: (curve _ _ _ _) => [cu|e] //|]); cbn [rbind sbind void rmap];
  (case: (pp_win a); [case: (kde _ _ _) => [kw|e] //; cbn [rbind]; case: (curve _ _ _ _) => [cw|e] //|]); cbn [rbind sbind void rmap];
  (case: (pp_mud a); last by rewrite -/tr; cbn [sbind]; case: (tr));
  (case eM : (estimate s1) => [s2 [m|e]] //; cbn [sbind];
   rewrite /DensityModel.estimate (C38_mud_point_idempotent eM); cbn [snd rbind]; case: (at_idx m idx) => [x|e] //; cbn [rbind rmap sbind];
   rewrite -/tr; by case: (tr)).
rewrite /DensityModel.plot_param_space /PoisExModel.param_plot; case er : (pp_range a) => [r|]; cbn [isSome sbind].
  by apply: B; rewrite /xr er.
case: (fit_domain _ _ _ _) => [Bd|e] //; cbn [sbind].
by rewrite -/(put_dom s Bd); apply: B; rewrite /xr er.
Qed.
End ParamProps.
