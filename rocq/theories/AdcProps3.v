(** Property C133: a window as a whole. *)
Set Warnings "-notation-overridden,-ambiguous-paths".
From Coq Require Import String ZArith.
From mathcomp Require Import all_ssreflect all_algebra.
From mathcomp Require Import zify.
From mathcomp.algebra_tactics Require Import ring.
From Verif Require Import Py Nd Xnum XnumProofs UtilModel DensityModel NdProofs DensityProps3 UtilModel2 UtilProps
  StModel StProps StProps2 StProps3 StProps4 StProps5 DrawModel DrawProps DrawProps3 ContModel PoisModel StExModel StExProps
  PoisExModel PoisExProps PoisExProps2 PoisExProps3 AdcModel AdcProps AdcProps2.
Set Implicit Arguments. Unset Strict Implicit. Unset Printing Implicit Defensive.
Import Order.Theory GRing.Theory Num.Theory.
Local Open Scope ring_scope.

Section AdcProps3.
Variable R : rcfType.
Notation xnum := (xnum R).
Notation nd := (nd R).
Variables (D KW BW : Type) (pdf : D -> KW -> nd -> res (pdfval xnum)) (nokw : KW) (nobw : BW)
  (uniform : seq R -> seq R -> D) (norm01 : D) (kde : nd -> BW -> seq xnum -> res D)
  (kde_pdf : D -> nd -> res (seq xnum)) (trunc : R -> R).
Variables (pca_components : nd -> int -> res nd) (svd_v : nd -> res nd).
Variable curve : string -> D -> seq (R * R) -> int -> res (seq R * seq R).
Variable tri : seq R -> seq R -> seq R -> res unit.
Variables (stamps : nd -> res (seq R)) (parse : string -> res R).
Notation dprob := (dprob R D).
Notation mark := (mark R).
Notation ast := (ast R).
Notation afig := (afig R).
Notation estimate := (estimate pdf nokw nobw uniform norm01 kde kde_pdf).
Notation expected_ratio := (expected_ratio pdf nokw nobw uniform norm01 kde kde_pdf).
Notation mud_problem := (st_mud_problem D trunc pca_components svd_v).
Notation param_plot := (param_plot pdf nokw nobw uniform norm01 kde kde_pdf trunc curve).
Notation dist_axes := (dist_axes pdf nokw nobw uniform norm01 kde kde_pdf trunc curve).
Notation updated_dist_plot := (updated_dist_plot pdf nokw nobw uniform norm01 kde kde_pdf trunc curve).
Notation mud_problem_pca := (mud_problem_pca D trunc pca_components svd_v).
Notation time_window := (adcirc_time_window pdf nokw nobw uniform norm01 kde kde_pdf trunc pca_components svd_v curve tri
  stamps parse).

(** ** Specification *)
(** Whether a figure is asked for: by its name or by "all". *)
Definition asks (k : string) (figs : figsel) : bool := fig_in k figs || fig_in "all" figs.
(** A figure saved under its name in [sp], if there is one, and closed only then. *)
Definition window_fig (title : option (string * int * xnum)) (sp : option string) (cl : bool) (name : string) (axes : seq (seq mark)) : afig :=
  AFig title axes (file_in sp name) (if sp is Some _ then cl else false).
(** The name ends with the number of components and the number of times. *)
Definition named (pre : string) (nc : int) (ndata : nat) : string := (pre ++ str_int nc ++ "_" ++ str_int (Posz ndata))%string.
Lemma afig_ofE ti name sp cl axes : afig_of ti name sp cl axes = window_fig ti sp cl name axes.
Proof. by rewrite /afig_of fig_ofE /window_fig. Qed.

(** C133: a window.  The time series with the components, the densities of the parameters, the QoI;
    the problem returned is the one whose estimate and E(r) are shown, its domain widened by the
    density figure, if that was drawn. *)
Theorem C133_run (a a' : ast) w method nc mp ylims (title : option string) sp figs cl tm P P1 m e l (n p : nat)
    vax qax d0 r wt kd (cin cup : nat -> seq R * seq R) :
  in_window stamps parse (a_st a) w = Ok tm ->
  mud_problem_pca a method nc (Some (MBools tm)) = (a', Ok P) ->
  nd_wf (ddom P) -> Nd.shape (ddom P) = [:: p; 2%N] -> Nd.shape (dX P) = [:: n; p] ->
  estimate P = (P1, Ok m) -> size m = p -> (title <> None -> (expected_ratio P1).2 = Ok e) ->
  (asks "ts-pca" figs -> pca_vector_plot a' tm mp = Ok vax) ->
  (asks "updated_dist" figs -> [/\ s_lref (a_st a) = Some l, (p <= size l)%N, ylims_ok ylims p,
     [/\ default_initial uniform P = Ok d0, d_r P1 = Some r, xvbop (@xmul R) r (d_w P1) = Ok wt & kde (dX P) nobw wt = Ok kd] &
     forall i, (i < p)%N -> let xr := stretched (wq R i.+1) (ddom P) in
       curve "pdf" d0 xr i = Ok (cin i) /\ curve "kde" kd xr i = Ok (cup i)]) ->
  (asks "learned_qoi" figs -> qoi_fig tri P nc = Ok qax) ->
  let t := omap (fun t => (t, nc, e)) title in let N := count id tm in
  exists P', [/\ time_window a w method nc mp ylims title sp figs cl =
      (a', ((if asks "ts-pca" figs then [:: window_fig t sp cl (named "pca_vecs_" nc N) vax] else [::]) ++
            (if asks "updated_dist" figs then [:: window_fig t sp cl (named "updated_dist_" nc N)
               [seq dist_marks (cin i) (cup i) (nth 0 m i) (nth 0 l i) | i <- iota 0 p]] else [::]) ++
            (if asks "learned_qoi" figs then [:: window_fig t sp cl "qoi_{num_components}_{ndata}" qax] else [::]), Ok P')),
    same_but_domain P1 P', estimate P' = (P', Ok m),
    forall x, (expected_ratio P1).2 = Ok x -> expected_ratio P' = (P', Ok x) &
    if asks "updated_dist" figs then widened (wq R p) (ddom P) (ddom P') else P' = P1].
Proof.
move=> ew eP wf sh hX em sm he hv hd hq t N.
have [k1 k2 _ _] := @C133_components_kept R D trunc pca_components svd_v a method nc (Some (MBools tm)).
rewrite eP in k1 k2; cbn [fst snd] in k1, k2.
have [f1 f2 f3 f4 f5] := fresh (esym k1).
have [[d ed' di] up1 _ [bX bY bD bI] em1] := estimate_fresh f1 f2 f3 f4 em.
have n1 : ndim (ddom P1) = 2%N by rewrite bD /ndim sh.
have m1 : dim (ddom P1) 1 = 2%N by rewrite bD /dim sh.
have i1 : d_int P1 = false by rewrite bI.
have wf1 : nd_wf (ddom P1) by rewrite bD.
have hX1 : Nd.shape (dX P1) = [:: n; p] by rewrite bX.
have sm1 : (p <= size m)%N by rewrite sm.
have ratio B x : (expected_ratio P1).2 = Ok x -> expected_ratio (put_dom P1 B) = (put_dom P1 B, Ok x) by exact: ratio_up.
have et : (if title is Some t0 then let (P, r0) := expected_ratio P1 in (P, rmap (fun e0 => Some (t0, nc, e0)) r0) else (P1, Ok None)) =
          (P1, Ok t).
  rewrite /t; case: (title) he => [t0|] //= he; have := ratio (ddom P1) e (he _); rewrite put_dom_id => -> //=.
have [Pd [eD sD eD2 eD3 eD4]] : exists Pd, [/\ asks "updated_dist" figs ->
     updated_dist_plot P1 (Some l) ylims = (Pd, Ok [seq dist_marks (cin i) (cup i) (nth 0 m i) (nth 0 l i) | i <- iota 0 p]),
     same_but_domain P1 Pd, estimate Pd = (Pd, Ok m),
     forall x, (expected_ratio P1).2 = Ok x -> expected_ratio Pd = (Pd, Ok x) &
     if asks "updated_dist" figs then widened (wq R p) (ddom P) (ddom Pd) else Pd = P1].
  case ea: (asks "updated_dist" figs); last first.
    exists P1; split=> //; first by rewrite /same_but_domain put_dom_id.
    by move=> x hx; have := ratio (ddom P1) x hx; rewrite put_dom_id.
  have [el sl yl [g1 g2 g3 g4] hc] := hd ea.
  have co i : (i < p)%N -> up_curves nobw kde curve P1 (stretched (wq R i.+1) (ddom P1)) i (cin i) (cup i).
    move=> hi; move: ed'; rewrite g1 => -[ed']; exists d0, r, wt, kd; rewrite bX bD di -ed'; split=> //; exact: (hc i hi).
  have [B eB wB] := @C133_densities R D KW BW pdf nokw nobw uniform norm01 kde kde_pdf trunc curve P1 m l ylims p n cin cup wf1 n1 m1 i1 hX1 up1 em1 sm1 sl yl co.
  exists (put_dom P1 B); split=> //.
  - exact: (estimate_up B up1 em1).
  - exact: ratio.
  by rewrite -bD.
exists Pd; split=> //.
rewrite /adcirc_time_window ew eP em et -/(asks "ts-pca" figs) -/(asks "updated_dist" figs) -/(asks "learned_qoi" figs) /astep.
have q1 Q : same_but_domain P1 Q -> asks "learned_qoi" figs -> qoi_fig tri Q nc = Ok qax.
  by move=> -> ha; rewrite -(hq ha) /qoi_fig; cbn [put_dom dX dy]; rewrite bX bY.
have tail Q : same_but_domain P1 Q ->
    (if asks "learned_qoi" figs then
       match (Q, rmap (afig_of t "qoi_{num_components}_{ndata}"%string sp cl) (qoi_fig tri Q nc)) with
       | (_, Err e) => ([::], Err e)
       | (P', Ok f) => let (fs, r) := ([::], Ok P') in (f :: fs, r)
       end
     else ([::], Ok Q)) =
    ((if asks "learned_qoi" figs then [:: window_fig t sp cl "qoi_{num_components}_{ndata}" qax] else [::]), Ok Q).
  by move=> hQ; case eq: (asks "learned_qoi" figs) => //; rewrite (q1 Q hQ eq); cbn [rmap]; rewrite afig_ofE.
congr (_, _).
case ev: (asks "ts-pca" figs); [rewrite (hv ev); cbn [rmap]; rewrite afig_ofE|].
- case ea: (asks "updated_dist" figs); [have [el _ _ _ _] := hd ea; rewrite k2 el (eD ea); cbn [rmap]; rewrite afig_ofE|].
    by rewrite (tail Pd sD).
  by rewrite (tail P1 _) ?/same_but_domain ?put_dom_id //; rewrite ea in eD4; rewrite eD4.
case ea: (asks "updated_dist" figs); [have [el _ _ _ _] := hd ea; rewrite k2 el (eD ea); cbn [rmap]; rewrite afig_ofE|].
  by rewrite (tail Pd sD).
by rewrite (tail P1 _) ?/same_but_domain ?put_dom_id //; rewrite ea in eD4; rewrite eD4.
Qed.

(** C133: a window without times raises ValueError, whatever is asked for; nothing is drawn. *)
Theorem C133_empty (a : ast) n p k t d lam se ti ts w lo hi method nc mp ylims title sp figs cl : let s := a_st a in
  setup s n p k t d lam se ti -> stamps ti = Ok ts -> size ts = t -> parse w.1 = Ok lo -> parse w.2 = Ok hi ->
  (forall x, x \in ts -> ~~ ((lo < x) && (x < hi))) ->
  time_window a w method nc mp ylims title sp figs cl = (a, ([::], Err ValueError)).
Proof.
move=> s su es sts ea eb no.
have et : s_times s = Some ti by case: su => _ [].
have [tm [ew _ eT _]] := C133_window et es ea eb; rewrite sts in eT.
have T0 : inside ts lo hi = [::].
  by apply/eqP; rewrite -[_ == _]negbK -has_filter; apply/hasPn => j; rewrite mem_iota add0n => hj; apply: no; apply: mem_nth.
rewrite T0 in eT.
have := @C59_sample_data R s n p k t d lam se ti None (Some (MBools tm)) None su (fun h => match h erefl with end).
rewrite eT; cbn [picked size]; rewrite muln0 eqxx => e.
rewrite /adcirc_time_window -/s ew /AdcModel.mud_problem_pca -/s /st_mud_problem e; cbn [rbind].
by case: ifP.
Qed.

(** C133: the reference value is only looked up for the density figure: without it that figure
    raises AttributeError, after the figure of the components. *)
Theorem C133_no_reference (a a' : ast) w method nc mp ylims title sp figs cl tm P P1 m vax :
  in_window stamps parse (a_st a) w = Ok tm -> mud_problem_pca a method nc (Some (MBools tm)) = (a', Ok P) ->
  estimate P = (P1, Ok m) -> title = None -> s_lref (a_st a) = None -> asks "updated_dist" figs ->
  (asks "ts-pca" figs -> pca_vector_plot a' tm mp = Ok vax) ->
  time_window a w method nc mp ylims title sp figs cl =
  (a', ((if asks "ts-pca" figs then [:: window_fig None sp cl (named "pca_vecs_" nc (count id tm)) vax] else [::]), Err AttributeError)).
Proof.
move=> ew eP em -> el ea hv.
have [_ k2 _ _] := @C133_components_kept R D trunc pca_components svd_v a method nc (Some (MBools tm)).
rewrite eP in k2; cbn [fst snd] in k2.
rewrite /adcirc_time_window ew eP em -/(asks "ts-pca" figs) -/(asks "updated_dist" figs) -/(asks "learned_qoi" figs) /astep ea k2 el.
by congr (_, _); case ev: (asks "ts-pca" figs) => //; rewrite (hv ev); cbn [rmap]; rewrite afig_ofE.
Qed.
(** C133: method "pca" with one sensor and one or two components: all that the figures show. *)
Theorem C133_pca_run (a : ast) (n p t : nat) d lam se ti ts dom sd meas w lo hi (q : nat) c (mp : nat) ylims title sp figs cl :
  let s := a_st a in let T := inside ts lo hi in
  setup s n p 1 t d lam se ti -> Nd.shape se = [:: 1%N; 2%N] -> s_meas s = Some (NArr meas) -> s_sd s = Some sd ->
  s_dom s = Some dom -> nd_wf dom -> Nd.shape dom = [:: p; 2%N] -> (2 <= p)%N ->
  stamps ti = Ok ts -> size ts = t -> parse w.1 = Ok lo -> parse w.2 = Ok hi -> T <> [::] ->
  pca_components (nd2 (size T) [seq [seq (nth 0 (data meas) j - ent d i j) / sd | j <- T] | i <- iota 0 n]) (Posz q) = Ok c ->
  nd_wf c -> Nd.shape c = [:: q; size T] -> (q <= 2)%N ->
  exists P, [/\ exists2 tm, in_window stamps parse s w = Ok tm & mud_problem s "pca" None None (Posz q) None (Some (MBools tm)) None = Ok P,
    rows (dX P) = [seq row_of lam p i | i <- iota 0 n] /\ Nd.shape (dX P) = [:: n; p], ddom P = dom /\ d_w P = nseq n (Fin 1),
    Nd.shape (dy P) = [:: n; q] /\ rows (dy P) =
      [seq [seq \sum_(l < size T) (nth 0 (data meas) (nth 0%N T l) - ent d i (nth 0%N T l)) / sd * ent c b l | b <- iota 0 q] | i <- iota 0 n] &
    forall P1 m e l d0 r wt kd (cin cup : nat -> seq R * seq R),
    estimate P = (P1, Ok m) -> size m = p -> (expected_ratio P1).2 = Ok e ->
    [/\ s_lref s = Some l, (p <= size l)%N & ylims_ok ylims p] ->
    [/\ default_initial uniform P = Ok d0, d_r P1 = Some r, xvbop (@xmul R) r (d_w P1) = Ok wt & kde (dX P) nobw wt = Ok kd] ->
    (forall i, (i < p)%N -> let xr := stretched (wq R i.+1) (ddom P) in
       curve "pdf" d0 xr i = Ok (cin i) /\ curve "kde" kd xr i = Ok (cup i)) ->
    let tt := omap (fun t => (t, Posz q, e)) title in
    exists P', [/\ time_window a w "pca" (Posz q) (Posz mp) ylims title sp figs cl =
      (AST s (Some c),
       ((if asks "ts-pca" figs then [:: window_fig tt sp cl (named "pca_vecs_" q (size T)) (vector_axes ti meas d c T (minn mp n) q)] else [::]) ++
        (if asks "updated_dist" figs then [:: window_fig tt sp cl (named "updated_dist_" q (size T))
               [seq dist_marks (cin i) (cup i) (nth 0 m i) (nth 0 l i) | i <- iota 0 p]] else [::]) ++
        (if asks "learned_qoi" figs then [:: window_fig tt sp cl "qoi_{num_components}_{ndata}"
               [seq learned_axes (dX P) (dy P) i | i <- iota 0 q]] else [::]), Ok P')),
      same_but_domain P1 P', estimate P' = (P', Ok m) &
      if asks "updated_dist" figs then widened (wq R p) dom (ddom P') else P' = P1]].
Proof.
move=> s T su hse hm esd edm wdm hdm hp es sts ea eb T0 ec wc hc hq.
have T1 : (0 < size T)%N by case: (T) T0.
have et : s_times s = Some ti by case: su => _ [].
have rE i l : (l < size T)%N -> (meas_at s t (l %/ size T) (nth 0%N T (l %% size T)) -
    ent d i ((l %/ size T) * t + nth 0%N T (l %% size T))) / sd = (nth 0 (data meas) (nth 0%N T l) - ent d i (nth 0%N T l)) / sd.
  by move=> hl; rewrite divn_small // modn_small // /meas_at hm !mul0n !add0n.
have ec' : pca_components (nd2 (1 * size T) [seq [seq (meas_at s t (l %/ size T) (nth 0%N T (l %% size T)) -
    ent d i ((l %/ size T) * t + nth 0%N T (l %% size T))) / sd | l <- iota 0 (1 * size T)] | i <- iota 0 n]) (Posz q) = Ok c.
  rewrite mul1n -ec; congr (pca_components (nd2 _ _) _); apply/eq_map => i.
  apply: (@eq_from_nth _ 0); rewrite ?size_map ?size_iota // => l hl.
  by rewrite (nth_map 0%N) ?size_iota // nth_iota // add0n rE // [RHS](nth_map 0%N).
have hc1 : Nd.shape c = [:: q; (1 * size T)%N] by rewrite mul1n.
have mne : s_meas s <> None by rewrite hm.
have [tm [P [ew eP [eX sX] [eD eW] [sY rY]]]] := @C133_problem R D trunc pca_components svd_v stamps parse a n p 1 t d lam se ti ts dom sd w lo hi
  (Posz q) c q su mne esd edm wdm hdm es sts ea eb isT T0 ec' wc hc1.
rewrite -/s in ew eP.
have [tm' [ew' _ eT ctm]] := C133_window et es ea eb; rewrite -/s ew in ew'; case: ew' => ew'; rewrite -{}ew' sts -/T in eT ctm => {tm'}.
exists P; split=> //.
  by exists tm => //; have := congr1 snd eP.
  split=> //; rewrite rY; apply/eq_map => i; apply/eq_map => b; rewrite mul1n; apply: eq_bigr => l _.
  by rewrite -/T; congr (_ * _); rewrite -rE.
move=> P1 m e l d0 r wt kd cin cup em sm he [el sl yl] hk hcu tt.
have hv : pca_vector_plot (AST s (Some c)) tm (Posz mp) = Ok (vector_axes ti meas d c T (minn mp n) q).
  have := @C133_vectors R (AST s (Some c)) n p 1 t d lam se ti meas tm T mp c q (size T) su hse isT hm eT T1 erefl wc hc.
  by move=> ->; rewrite eqxx andbF ltnNge (leq_trans hq).
have hqf : qoi_fig tri P q = Ok [seq learned_axes (dX P) (dy P) i | i <- iota 0 q].
  by rewrite (C133_qoi tri q sX sY hp) hq andbT geq_minl.
have shD : Nd.shape (ddom P) = [:: p; 2%N] by rewrite eD.
have wfD : nd_wf (ddom P) by rewrite eD.
have [P' [r1 r2 r3 _ r5]] := @C133_run a (AST s (Some c)) w "pca" (Posz q) (Posz mp) ylims title sp figs cl tm P P1 m e l n p
  _ _ d0 r wt kd cin cup ew eP wfD shD sX em sm (fun _ => he) (fun _ => hv) (fun _ => And5 el sl yl hk hcu) (fun _ => hqf).
rewrite eD in r5; rewrite ctm in r1.
by exists P'.
Qed.
End AdcProps3.
