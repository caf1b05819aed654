(** Property C133: the figures of adcirc_time_window. *)
Set Warnings "-notation-overridden,-ambiguous-paths".
From Coq Require Import String ZArith.
From mathcomp Require Import all_ssreflect all_algebra.
From mathcomp Require Import zify.
From mathcomp.algebra_tactics Require Import ring.
From Verif Require Import Py Nd Xnum XnumProofs UtilModel DensityModel NdProofs DensityProps3 UtilModel2 UtilProps
  StModel StProps StProps2 StProps3 StProps4 StProps5 DrawModel DrawProps DrawProps3 ContModel PoisModel StExModel StExProps
  PoisExModel PoisExProps PoisExProps2 PoisExProps3 AdcModel AdcProps.
Set Implicit Arguments. Unset Strict Implicit. Unset Printing Implicit Defensive.
Import Order.Theory GRing.Theory Num.Theory.
Local Open Scope ring_scope.

Section AdcProps2.
Variable R : rcfType.
Notation xnum := (xnum R).
Notation nd := (nd R).
Variables (D KW BW : Type) (pdf : D -> KW -> nd -> res (pdfval xnum)) (nokw : KW) (nobw : BW)
  (uniform : seq R -> seq R -> D) (norm01 : D) (kde : nd -> BW -> seq xnum -> res D)
  (kde_pdf : D -> nd -> res (seq xnum)) (trunc : R -> R).
Variables (pca_components : nd -> int -> res nd) (svd_v : nd -> res nd).
Variable curve : string -> D -> seq (R * R) -> int -> res (seq R * seq R).
Variable tri : seq R -> seq R -> seq R -> res unit.
Variables (stamps : nd -> res (seq R)) (parse : string -> res R).
Notation dprob := (dprob R D).
Notation mark := (mark R).
Notation ast := (ast R).
Notation afig := (afig R).
Notation estimate := (estimate pdf nokw nobw uniform norm01 kde kde_pdf).
Notation expected_ratio := (expected_ratio pdf nokw nobw uniform norm01 kde kde_pdf).
Notation mud_problem := (st_mud_problem D trunc pca_components svd_v).
Notation param_plot := (param_plot pdf nokw nobw uniform norm01 kde kde_pdf trunc curve).
Notation dist_axes := (dist_axes pdf nokw nobw uniform norm01 kde kde_pdf trunc curve).
Notation updated_dist_plot := (updated_dist_plot pdf nokw nobw uniform norm01 kde kde_pdf trunc curve).
Notation mud_problem_pca := (mud_problem_pca D trunc pca_components svd_v).
Notation time_window := (adcirc_time_window pdf nokw nobw uniform norm01 kde kde_pdf trunc pca_components svd_v curve tri
  stamps parse).

(** ** Specification *)
(** Widening by 5% an interval that is wider by [wq n] makes it wider by [wq n.+1]. *)
Lemma wq0 : wq R 0 = 0. Proof. by rewrite /wq expr0 subrr mul0r. Qed.
Lemma widened_step n B B1 B2 : widened (wq R n) B B1 -> widened (5%:R / 100%:R) B1 B2 -> widened (wq R n.+1) B B2.
Proof.
move=> [w1 s1 h1] [w2 s2 h2]; split; [by [] | by rewrite s2|] => j hj lo hi.
have hj1 : (j < dim B1 0)%N by rewrite /dim s1.
have e2 : (2%:R : R) != 0 by rewrite pnatr_eq0.
have e : wq R n.+1 = wq R n + 5%:R / 100%:R * (1 + wq R n + wq R n).
  by rewrite /wq exprS; move: (_ ^+ n) => x; field.
rewrite (h2 j hj1) (h1 j hj) -/lo -/hi /= e; congr [:: _; _]; ring.
Qed.
Lemma widened0 B : nd_wf B -> ndim B = 2%N -> dim B 1 = 2%N -> widened (wq R 0) B B.
Proof.
move=> wf n2 d2; split=> // j hj lo hi; rewrite wq0 !mul0r subr0 addr0 {}/lo {}/hi.
have := all_size_rows wf n2; move=> /(all_nthP [::]) /(_ j); rewrite size_rows => /(_ hj).
by rewrite d2; case: (nth [::] _ j) => [|x [|y [|]]].
Qed.
Lemma widened_5 B B1 n : widened (wq R n) B B1 -> ndim B = 2%N -> dim B 1 = 2%N ->
  stretched (5%:R / 100%:R) B1 = stretched (wq R n.+1) B.
Proof.
move=> w1 n2 d2; have [wf sh h1] := w1.
rewrite /stretched {1}/dim sh -/(dim B 0); apply/eq_in_map => j; rewrite mem_iota add0n => hj.
have e2 : (2%:R : R) != 0 by rewrite pnatr_eq0.
have e : wq R n.+1 = wq R n + 5%:R / 100%:R * (1 + wq R n + wq R n).
  by rewrite /wq exprS; move: (_ ^+ n) => x; field.
rewrite /ent (h1 j hj) /= e; congr (_, _); ring.
Qed.

(** The axes of a parameter: the initial and the updated density, the MUD value and the reference value. *)
Definition dist_marks (cin cup : seq R * seq R) (x y : R) : seq mark :=
  [:: DensityCurve "in" cin.1 cin.2; DensityCurve "up" cup.1 cup.2; VLine "mud" x; VLine "true" y].
Definition up_curves (P : dprob) (xr : seq (R * R)) (idx : int) (cin cup : seq R * seq R) : Prop :=
  curves_ok nobw kde curve P xr idx cin cup.

Lemma distE P m l (idx : nat) cin cup : nd_wf (ddom P) -> ndim (ddom P) = 2%N -> dim (ddom P) 1 = 2%N -> d_int P = false ->
  d_up P <> None -> estimate P = (P, Ok m) -> (idx < size m)%N -> (idx < size l)%N ->
  up_curves P (stretched (5%:R / 100%:R) (ddom P)) idx cin cup ->
  exists2 B, param_plot P idx (pp_dist (Some l)) = (put_dom P B, Ok (dist_marks cin cup (nth 0 m idx) (nth 0 l idx))) &
    widened (5%:R / 100%:R) (ddom P) B.
Proof.
move=> wf n2 d2 ei eu em sm sl [d [r [w [k [ed er ew ek [c1 c2]]]]]].
have [B [eB wB]] := fitE trunc (5%:R / 100%:R) wf n2 d2 ei.
exists B => //; rewrite /PoisExModel.param_plot /pp_dist /DensityModel.lift.
cbn [pp_range pp_in pp_up pp_win pp_mud pp_true pp_true_on pp_pad sbind]; rewrite eB; cbn [sbind put_dom d_in_dist].
rewrite ed (widened_intervals wB); cbn [of_opt sbind]; rewrite c1; cbn [rbind sbind].
rewrite /updated_kde; cbn [d_r d_w dX]; rewrite er ew; cbn [rbind]; rewrite ek; cbn [rbind]; rewrite c2; cbn [rbind sbind].
rewrite -/(put_dom P B) (estimate_up _ eu em); cbn [sbind].
by rewrite /at_idx /py_index sm sl.
Qed.

(** Enough entries in [ylims]. *)
Definition ylims_ok (ylims : option (seq R)) (p : nat) : bool := if ylims is Some l then (p <= size l)%N else true.

(** C133: the densities: parameter [i] is drawn over the domain widened [i] + 1 times by 5%. *)
Theorem C133_densities P m l ylims (p n : nat) (cin cup : nat -> seq R * seq R) :
  nd_wf (ddom P) -> ndim (ddom P) = 2%N -> dim (ddom P) 1 = 2%N -> d_int P = false -> Nd.shape (dX P) = [:: n; p] ->
  d_up P <> None -> estimate P = (P, Ok m) -> (p <= size m)%N -> (p <= size l)%N -> ylims_ok ylims p ->
  (forall i, (i < p)%N -> up_curves P (stretched (wq R i.+1) (ddom P)) i (cin i) (cup i)) ->
  exists2 B, updated_dist_plot P (Some l) ylims =
    (put_dom P B, Ok [seq dist_marks (cin i) (cup i) (nth 0 m i) (nth 0 l i) | i <- iota 0 p]) &
    widened (wq R p) (ddom P) B.
Proof.
move=> wf n2 d2 ei hX eu em sm sl yl hc; rewrite /AdcModel.updated_dist_plot /dim hX [nth _ _ _]/=.
suff main q j B0 : (j + q = p)%N -> widened (wq R j) (ddom P) B0 -> exists2 B,
    dist_axes (put_dom P B0) (Some l) ylims j q =
    (put_dom P B, Ok [seq dist_marks (cin i) (cup i) (nth 0 m i) (nth 0 l i) | i <- iota j q]) &
    widened (wq R p) (ddom P) B.
  have [B eB wB] := main p 0%N (ddom P) (add0n _) (widened0 wf n2 d2).
  by exists B => //; rewrite -{1}(put_dom_id P) eB.
elim: q j B0 => [|q ih] j B0 ejq w0; first by exists B0 => //; rewrite -ejq addn0.
have jp : (j < p)%N by rewrite -ejq addnS ltnS leq_addr.
cbn [AdcModel.dist_axes iota map]; rewrite /DensityModel.lift.
have -> : guard (if ylims is Some l0 then (j < size l0)%N else true) IndexError = Ok tt.
  by rewrite /guard; case: (ylims) yl => [yl0|] //= h; rewrite (leq_trans jp h).
cbn [sbind].
have [wf0 n0 d0] := widened_shape w0; rewrite n2 in n0; rewrite d2 in d0.
have co : up_curves (put_dom P B0) (stretched (5%:R / 100%:R) (ddom (put_dom P B0))) j (cin j) (cup j).
  change (ddom (put_dom P B0)) with B0; rewrite (widened_5 w0) //; exact: (hc j jp).
have [B1 eB1 wB1] := @distE (put_dom P B0) m l j (cin j) (cup j) wf0 n0 d0 ei eu (estimate_up B0 eu em)
  (leq_trans jp sm) (leq_trans jp sl) co.
rewrite eB1; cbn [sbind].
have ej : (j.+1 + q = p)%N by rewrite -ejq addnS.
have [B eB wB] := ih j.+1 B1 ej (widened_step w0 wB1).
rewrite -[put_dom (put_dom P B0) B1]/(put_dom P B1) eB; cbn [sbind].
by exists B.
Qed.

(** ** The other figures *)
(** The first axes: the measurements and the curves of the first sensor at the times of the
    window; the second: the components, each with its colour. *)
Definition vector_axes (ti m d c : nd) (T : seq nat) (curves q : nat) : seq (seq mark) :=
  let ts := [seq nth 0 (data ti) j | j <- T] in
  [:: map (@Art R) (OnCurrent (Points ts [seq nth 0 (data m) j | j <- T] None) ::
                    [seq Curve ts [seq ent d i j | j <- T] | i <- iota 0 curves]);
      [seq Group (nth "" [:: "blue"; "orange"; "black"] b)%string "o" ts (row_of c (size T) b) | b <- iota 0 q]].

Lemma ohead_drop (T : Type) (x0 : T) (l : seq T) i : ohead (drop i l) = if (i < size l)%N then Some (nth x0 l i) else None.
Proof. by elim: l i => [[]|x l ih [|i]] //=; rewrite ih. Qed.

(** C133: the components are drawn if they are not more than three and as long as the window, that
    is to say if there is one sensor; the colours run out (IndexError) or the lengths differ
    (ValueError) otherwise. *)
Theorem C133_vectors (a : ast) n p k t d lam se ti m tm T (mp : nat) c q w : let s := a_st a in
  setup s n p k t d lam se ti -> Nd.shape se = [:: k; 2%N] -> (0 < k)%N -> s_meas s = Some (NArr m) ->
  picked t (Some (MBools tm)) = Ok T -> (0 < size T)%N ->
  a_pca a = Some c -> nd_wf c -> Nd.shape c = [:: q; w] ->
  pca_vector_plot a tm (Posz mp) =
  if (0 < q)%N && (w != size T) then Err ValueError else if (3 < q)%N then Err IndexError
  else Ok (vector_axes ti m d c T (minn mp n) q).
Proof.
move=> s su hse k0 hm eT T0 ec wc hc.
have mx : meant k 0 0%N by rewrite /meant; lia.
have eI : picked n None = Ok (iota 0 n) by [].
have [ts [ms [cs [ep [sts nts] [sms nms] scs ncs]]]] := @C127_plot_ts R s n p k t d lam se ti m None (Some (MBools tm)) 0 0%N (iota 0 n) T mp su hse hm eI eT T0 mx.
rewrite size_iota in scs ncs.
have et : s_times s = Some ti by case: su => _ [].
have [wt ht] : nd_wf ti /\ (Nd.shape ti = [:: t] \/ Nd.shape ti = [:: t; 1%N]) by case: su => _ _ _ [_].
have dt : dim ti 0 = t by rewrite /dim; case: ht => ->.
have aT : all (fun i => (i < t)%N) T by apply: picked_lt eT.
have ets : ts = [seq nth 0 (data ti) j | j <- T].
  by apply: (@eq_from_nth _ 0); rewrite ?size_map // sts => j hj; rewrite nts // (nth_map 0%N).
have ems : ms = [seq nth 0 (data m) j | j <- T].
  by apply: (@eq_from_nth _ 0); rewrite ?size_map // sms => j hj; rewrite nms // (nth_map 0%N) // mul0n add0n.
have ecs : cs = [seq [seq ent d i j | j <- T] | i <- iota 0 (minn mp n)].
  apply: (@eq_from_nth _ [::]); rewrite ?size_map ?size_iota // scs => i hi; have [si ni] := ncs i hi.
  have hin : (i < n)%N by apply: leq_trans hi _; rewrite geq_minr.
  rewrite (nth_map 0%N) ?size_iota // nth_iota // add0n.
  apply: (@eq_from_nth _ 0); rewrite ?size_map // si => j hj.
  by rewrite ni // (nth_map 0%N) // nth_iota // add0n mul0n add0n.
rewrite /pca_vector_plot -/s ep; cbn [rbind]; rewrite ec; cbn [of_opt rbind]; rewrite et; cbn [of_opt rbind].
move: (eT); rewrite /picked dt => ->; cbn [rbind]; rewrite (take0_1d wt ht aT) -ets.
have er : rows c = [seq row_of c w b | b <- iota 0 q] by exact: (rows_of wc hc).
rewrite {1}/dim hc [nth _ _ _]/= er.
pose gr b := Group (nth "" [:: "blue"; "orange"; "black"] b)%string "o" ts (row_of c w b).
have ez : zip (iota 0 q) [seq row_of c w b | b <- iota 0 q] = [seq (b, row_of c w b) | b <- iota 0 q].
  by elim: (iota 0 q) => [//|x l ih] /=; rewrite ih.
have em M A B C (f : B -> res C) (g : A -> B) (l : seq A) : M = tt -> rmapM f (map g l) = rmapM (fun x => f (g x)) l.
  by move=> _; elim: l => [//|x l ih] /=; rewrite ih.
rewrite ez (em tt) //; clear em ez er.
have dv b : draw_vec ts b (row_of c w b) = if (b < 3)%N then if w == size T then Ok (gr b) else Err ValueError else Err IndexError.
  rewrite /draw_vec (ohead_drop ""%string); cbn [size vec_colors]; case: ifP => // hb; cbn [of_opt rbind].
  by rewrite sts size_map size_iota eq_sym /guard; case: ifP.
cbn [fst snd].
case: q hc => [|q] hc; first by rewrite andFb; cbn [iota rmapM rbind]; rewrite /vector_axes -ets -ems ecs -map_comp.
rewrite ltn0Sn andTb; case: (eqVneq w (size T)) => ew.
  have dv' b : List.In b (iota 0 q.+1) -> draw_vec ts b (row_of c w b) = if (b < 3)%N then Ok (gr b) else Err IndexError.
    by move=> _; rewrite dv ew eqxx.
  rewrite (rmapM_if dv').
  have -> : all (fun b => (b < 3)%N) (iota 0 q.+1) = (q.+1 <= 3)%N.
    apply/allP/idP => [h|h b]; first by have := h q; rewrite mem_iota add0n ltnSn => /(_ isT).
    by rewrite mem_iota add0n => /= hb; apply: leq_trans hb h.
  by rewrite /vector_axes -ets -ems ecs -map_comp /gr ew; case: (leqP q.+1 3).
by cbn [iota rmapM]; rewrite dv (negbTE ew).
Qed.
(** C133: without components (no window was solved with method "pca" before) there is a TypeError. *)
Theorem C133_no_components (a : ast) tm mp m1 : a_pca a = None -> plot_ts (a_st a) None (Some (MBools tm)) (Some 0) mp = Ok m1 ->
  pca_vector_plot a tm mp = Err TypeError.
Proof. by move=> e e1; rewrite /pca_vector_plot e1 e. Qed.

(** The axes of component [i]; only the first has a label for the ordinate. *)
Definition learned_axes (X y : nd) (i : nat) : seq mark :=
  map (@Art R) ([:: Points (ncol X 0) (ncol X 1) (Some (ncol y i)); Colorbar R; XLabelParam R 1] ++
                (if i == 0%N then [:: YLabelParam R 2] else [::])).
(** C133: the learned QoI: one axes per component, at most two, of two parameters or more. *)
Theorem C133_qoi (P : dprob) (nc : int) n p q : Nd.shape (dX P) = [:: n; p] -> Nd.shape (dy P) = [:: n; q] -> (2 <= p)%N ->
  qoi_fig tri P nc =
  if nc is Posz c then
    if (minn c 2 <= q)%N && (c <= 2)%N then Ok [seq learned_axes (dX P) (dy P) i | i <- iota 0 c] else Err ValueError
  else Ok [::].
Proof.
move=> hx hy hp; rewrite /qoi_fig; case: nc => [c|//].
have one i : List.In i (iota 0 c) ->
  (_ <- guard (i < 2)%N ValueError ;;
   a <- plot_params_2d tri (dX P) (dy P) 0 1 (Posz i) false true ;;
   Ok (map (@Art R) (if i == 1%N then take (size a).-1 a else a))) =
  if (i < 2)%N && (i < q)%N then Ok (learned_axes (dX P) (dy P) i) else Err ValueError.
  move=> _; rewrite /guard; case: ifP => hi //; cbn [rbind andb].
  rewrite /plot_params_2d /dim hx hy; cbn [nth]; rewrite /guard hp; cbn [rbind].
  have -> : ~~ ((Posz p <= 0) || (Posz p <= 1)) = true by lia.
  cbn [rbind]; have -> : ~~ (Posz q <= Posz i) = (i < q)%N by lia.
  case: ifP => hq //; cbn [rbind]; rewrite /py_index hq; cbn [rbind]; rewrite eqxx; cbn [rbind].
  by case: i hi hq => [|[|i]].
rewrite (rmapM_if one).
have -> : all (fun i => (i < 2)%N && (i < q)%N) (iota 0 c) = (minn c 2 <= q)%N && (c <= 2)%N.
  case: c {one} => [|c]; first by rewrite min0n.
  apply/allP/andP => [h|[h1 h2] i]; first by have := h c; rewrite mem_iota add0n ltnSn => /(_ isT); lia.
  by rewrite mem_iota add0n; lia.
by [].
Qed.
End AdcProps2.
