(** Property C137: the command adcirc_solve. *)
Set Warnings "-notation-overridden,-ambiguous-paths".
From Coq Require Import String ZArith.
From mathcomp Require Import all_ssreflect all_algebra.
From mathcomp Require Import zify.
From Verif Require Import Py Nd Xnum XnumProofs UtilModel DensityModel NdProofs DensityProps3 UtilModel2 UtilProps
  StModel StProps StProps2 StProps3 StProps4 StProps5 DrawModel DrawProps DrawProps3 ContModel PoisModel StExModel StExProps
  PoisExModel PoisExProps PoisExProps2 PoisExProps3 AdcModel AdcProps AdcProps2 AdcProps3 AdcProps4 CliModel CliProps.
Set Implicit Arguments. Unset Strict Implicit. Unset Printing Implicit Defensive.
Import Order.Theory GRing.Theory Num.Theory.
Local Open Scope ring_scope.

Section CliProps2.
Variable R : rcfType.
Notation xnum := (xnum R).
Notation nd := (nd R).
Variables (D KW BW : Type) (pdf : D -> KW -> nd -> res (pdfval xnum)) (nokw : KW) (nobw : BW)
  (uniform : seq R -> seq R -> D) (norm01 : D) (kde : nd -> BW -> seq xnum -> res D)
  (kde_pdf : D -> nd -> res (seq xnum)) (trunc : R -> R).
Variables (pca_components : nd -> int -> res nd) (svd_v : nd -> res nd).
Variables (G : Type) (reseed : int -> res G) (randn : nat -> G -> seq R * G).
Variable curve : string -> D -> seq (R * R) -> int -> res (seq R * seq R).
Variable tri : seq R -> seq R -> seq R -> res unit.
Variables (stamps : nd -> res (seq R)) (parse : string -> res R) (mesh : nd -> nd -> nd -> res unit).
Variables (wind : dset R -> res (seq R * seq R)) (grid : dset R -> res (dset R)) (zoom_of : string -> res ((R * R) * (R * R))).
Notation dprob := (dprob R D).
Notation ast := (ast R).
Notation afig := (afig R).
Notation record := (dict (cell R)).
Notation estimate := (estimate pdf nokw nobw uniform norm01 kde kde_pdf).
Notation expected_ratio := (expected_ratio pdf nokw nobw uniform norm01 kde kde_pdf).
Notation mud_problem := (st_mud_problem D trunc pca_components svd_v).
Notation time_window := (adcirc_time_window pdf nokw nobw uniform norm01 kde kde_pdf trunc pca_components svd_v curve tri
  stamps parse).
Notation windows_loop := (windows_loop pdf nokw nobw uniform norm01 kde kde_pdf trunc pca_components svd_v curve tri
  stamps parse).
Notation adcirc_solve := (adcirc_solve pdf nokw nobw uniform norm01 kde kde_pdf trunc pca_components svd_v reseed randn curve tri
  stamps parse mesh wind grid zoom_of).
Notation adcirc := (load_adcirc_prob reseed randn).

(** What a window shows and returns does not depend on the components another window left. *)
Lemma window_state (a b : ast) w nc mp yl ti sp figs cl : a_st a = a_st b ->
  (time_window a w "pca" nc mp yl ti sp figs cl).2 = (time_window b w "pca" nc mp yl ti sp figs cl).2 /\
  a_st (time_window a w "pca" nc mp yl ti sp figs cl).1 = a_st a.
Proof.
move=> e; rewrite /adcirc_time_window -e; case: (in_window _ _ _ _) => [tm|//].
rewrite /mud_problem_pca -e /=; set v := rbind _ _; case ev: v => [c|x].
  case: (mud_problem _ _ _ _ _ _ _ _) => [P|//]; case: (estimate P) => P1 [m|//].
  by case: (match ti with Some _ => _ | None => _ end) => P2 [].
case eP: (mud_problem _ _ _ _ _ _ _ _) => [P|//].
move: eP ev; rewrite /v /st_mud_problem.
case: (sample_data _ _ _ _) => [o|//]; cbn [rbind]; case er: (residuals _ _) => [r|//]; cbn [rbind apply_weights].
by rewrite /qoi_map /=; case: (pca _ _ _).
Qed.

(** ** Specification *)
(** The windows: the start times and end times in pairs, as many as there are of both. *)
Definition window (t1 t2 : seq string) (i : nat) : string * string := (nth ""%string t1 i, nth ""%string t2 i).
(** Limits of the ordinates: those of window [i], if there are exactly as many pairs as windows. *)
Definition limits (p1 p2 : seq R) (n i : nat) : option (seq R) :=
  if minn (size p1) (size p2) == n then Some [:: nth 0 p1 i; nth 0 p2 i] else None.
(** Window number [i] solved on its own, right after the problem has been loaded: its figures and the
    problem returned. *)
Definition alone (s : st R) (nc : int) (pf : seq string) (sp : option string) (yl : option (seq R)) (i : nat) (w : string * string)
  : seq afig * res dprob :=
  (time_window (AST s None) w "pca" nc 50 yl (Some ("$T_{" ++ str_int (Posz i.+1) ++ "}$")%string) sp (FigNames pf) false).2.
Definition wants (pf : seq string) (k : string) : Prop := List.In k pf \/ List.In "all"%string pf.

Lemma loop_cat (s : st R) nc pf sp ylims (F : nat -> seq afig) (P : nat -> dprob) (m : nat -> seq R) (e : nat -> xnum) rest ws :
  forall (a : ast) i, a_st a = s ->
  (forall j, (j < size ws)%N -> let yl := omap (fun l => let y := nth (0, 0) l (i + j)%N in [:: y.1; y.2]) ylims in
     alone s nc pf sp yl (i + j) (nth (""%string, ""%string) ws j) = (F (i + j)%N, Ok (P (i + j)%N)) /\
     exists P', estimate (P (i + j)%N) = (P', Ok (m (i + j)%N)) /\ (expected_ratio P').2 = Ok (e (i + j)%N)) ->
  exists2 a' : ast, a_st a' = s & windows_loop a nc pf sp ylims i (ws ++ rest) =
    let (fs, r) := windows_loop a' nc pf sp ylims (i + size ws) rest in
    (flatten [seq F (i + j)%N | j <- iota 0 (size ws)] ++ fs,
     rmap (cat [seq [:: ("t_start", CText R (nth (""%string, ""%string) ws j).1); ("t_end", CText R (nth (""%string, ""%string) ws j).2);
                      ("mud_pt", CArr (m (i + j)%N)); ("r", CNum (e (i + j)%N))]%string | j <- iota 0 (size ws)]) r).
Proof.
elim: ws => [|w ws ih] a i ea h.
  by exists a => //; rewrite addn0 /=; case: (windows_loop _ _ _ _ _ _ _) => fs [].
have [h0 [P' [h1 h2]]] := h 0%N isT; rewrite addn0 in h0 h1 h2; cbn [nth] in h0.
cbn [cat CliModel.windows_loop].
set yl := omap _ ylims in h0 *.
have [w1 w2] := @window_state a (AST s None) w nc 50 yl (Some (window_title i)) sp (FigNames pf) false ea.
move: w1 w2; rewrite [X in _ = X -> _]h0; case: (time_window _ _ _ _ _ _ _ _ _ _) => a1 [fs r] /= [-> ->] ea1.
rewrite /= /window_row /solution h1 /= h2 /=.
have [||a' ea' el] := ih a1 i.+1; first by rewrite ea1.
  move=> j hj; have := h j.+1 hj; rewrite addnS -addSn; exact.
exists a' => //; rewrite el addnS -addSn; case: (windows_loop a' _ _ _ _ _ _) => fs' r' /=.
have sh (T : Type) (f : nat -> T) : [seq f (i.+1 + j)%N | j <- iota 0 (size ws)] = [seq f (i + j)%N | j <- iota 1 (size ws)].
  by rewrite -[1%N]addn0 iotaDl -map_comp; apply: eq_map => j /=; rewrite addSnnS.
rewrite addn0 sh catA; congr (_, _); case: r' => [x|//] /=; congr (Ok (_ :: _ ++ _)).
rewrite -[iota 1 _]/(iota (1 + 0) _) iotaDl -map_comp; apply: eq_map => j /=; by rewrite addSnnS.
Qed.

Lemma wantsP pf k : has (String.eqb k) pf || has (String.eqb "all") pf <-> wants pf k.
Proof.
by split=> [/orP [/hasP_str|/hasP_str]|[/hasP_str ->|/hasP_str ->]]; [left | right | | rewrite orbT].
Qed.
Lemma limitsE (p1 p2 : seq R) n i : (i < n)%N ->
  omap (fun l => let y := nth (0, 0) l i in [:: y.1; y.2]) (if size (zip p1 p2) == n then Some (zip p1 p2) else None) =
  limits p1 p2 n i.
Proof.
move=> hi; rewrite /limits size_zip; case: eqP => //= e.
by rewrite nth_zip_cond size_zip e hi.
Qed.
Lemma windowE (t1 t2 : seq string) i : (i < minn (size t1) (size t2))%N ->
  nth (""%string, ""%string) (zip t1 t2) i = window t1 t2 i.
Proof. by move=> hi; rewrite nth_zip_cond size_zip hi. Qed.

(** What is shown before the windows are solved. *)
Definition preliminaries (ds : dset R) (s : st R) pf t1 t2 lx (ly : R) mv mz cut sp ts mf : Prop :=
  (if has (String.eqb "full_ts") pf || has (String.eqb "all") pf then
     exists2 wd, wind ds = Ok wd & exists2 f, ts = Some f &
       adcirc_ts_plot parse s (zip t1 t2) (Some wd) (Some [seq (x, ly) | x <- lx]) sp = Ok f
   else ts = None) /\
  (if has (String.eqb "mesh") pf || has (String.eqb "all") pf then
     exists gr z, [/\ grid ds = Ok gr, zoom_of mz = Ok z &
       exists2 f, mf = Some f & tri_mesh_plot mesh gr mv (Some [:: Posz 0]) (Some z) cut sp = Ok f]
   else mf = None).

(** C137: every window is solved on its own; one row per window, in the order given. *)
Theorem C137_windows file nc t1 t2 lx ly p1 p2 sigma mv mz cut pf seed sp g g1 ds s ts mf
    (F : nat -> seq afig) (P : nat -> dprob) (m : nat -> seq R) (e : nat -> xnum) :
  let n := minn (size t1) (size t2) in
  adcirc file sigma seed (Nd [:: 1; 2]%N [:: 0; 0]) g = (g1, Ok (ds, s)) ->
  preliminaries ds s pf t1 t2 lx ly mv mz cut sp ts mf ->
  (forall i, (i < n)%N -> alone s nc pf sp (limits p1 p2 n i) i (window t1 t2 i) = (F i, Ok (P i)) /\
     exists P', estimate (P i) = (P', Ok (m i)) /\ (expected_ratio P').2 = Ok (e i)) ->
  adcirc_solve file nc t1 t2 lx ly p1 p2 sigma mv mz cut pf seed sp g =
  (g1, (AdcFigs ts mf (flatten [seq F i | i <- iota 0 n]),
        Ok (if n == 0%N then None else
            Some ([:: "t_start"; "t_end"; "mud_pt"; "r"]%string,
                  [seq [:: CText R (nth ""%string t1 i); CText R (nth ""%string t2 i); CArr (m i); CNum (e i)] | i <- iota 0 n])))).
Proof.
move=> n el [hts hmf] hw; rewrite /CliModel.adcirc_solve (el : adcirc file sigma seed (default_sensors R) g = _); congr (_, _).
have sz : size (zip t1 t2) = n by rewrite size_zip.
rewrite sz.
have -> : (if has (String.eqb "full_ts") pf || has (String.eqb "all") pf then
             w <- wind ds ;; rmap (@Some _) (adcirc_ts_plot parse s (zip t1 t2) (Some w) (Some [seq (x, ly) | x <- lx]) sp) else Ok None) = Ok ts.
  by case: ifP hts => _ => [[wd -> [f -> /= ->]]|->].
have -> : (if has (String.eqb "mesh") pf || has (String.eqb "all") pf then
               gr <- grid ds ;; z <- zoom_of mz ;;
               rmap (@Some _) (tri_mesh_plot mesh gr mv (Some [:: Posz 0]) (Some z) cut sp) else Ok None) = Ok mf.
  by case: ifP hmf => _ => [[gr [z [-> /= -> [f -> /= ->]]]]|->].
have [||a' _ ew] := @loop_cat s nc pf sp (if size (zip p1 p2) == n then Some (zip p1 p2) else None) F P m e [::] (zip t1 t2) (AST s None) 0 => //.
  move=> j; rewrite sz add0n => hj yl; rewrite /yl limitsE // windowE //; exact: hw.
rewrite cats0 in ew; rewrite ew sz /= cats0; congr (_, _).
have nd4 : List.NoDup [:: "t_start"; "t_end"; "mud_pt"; "r"]%string by exact/repeatsP.
rewrite cats0.
set rs := [seq _ | j <- iota 0 n].
have -> (T : Type) (x y : T) : (if zip t1 t2 is [::] then x else y) = if n == 0%N then x else y by rewrite -sz; case: (zip t1 t2).
have [h3 _] := @C135_all R rs _ nd4; rewrite h3 /=.
  case: ifP => // _; congr (Ok (Some (_, _))); rewrite /rs -map_comp; apply/eq_in_map => i; rewrite mem_iota => hi /=.
  by rewrite windowE //.
move=> r f hr; have [j] := In_nth_seq [::] hr; rewrite /rs size_map size_iota => hj <-.
rewrite (nth_map 0%N) ?size_iota //.
by case=> [<-|[<-|[<-|[<-|]]]].
Qed.

(** ** The rows *)
Notation param_plot := (param_plot pdf nokw nobw uniform norm01 kde kde_pdf trunc curve).
Notation dist_axes := (dist_axes pdf nokw nobw uniform norm01 kde kde_pdf trunc curve).
Notation solution := (solution pdf nokw nobw uniform norm01 kde kde_pdf).

Lemma plot_keeps (P : dprob) m idx a : d_up P <> None -> estimate P = (P, Ok m) ->
  same_but_domain P (param_plot P idx a).1.
Proof.
move=> eu em; rewrite /PoisExModel.param_plot.
have step (Q : dprob) xr : same_but_domain P Q -> same_but_domain P
   (sbind (DensityModel.lift Q (of_opt AssertionError (d_in_dist Q))) (fun s d =>
    sbind (DensityModel.lift s (if pp_in a then c <- curve "pdf" d xr idx ;; Ok [:: DensityCurve "in" c.1 c.2] else Ok [::])) (fun s m1 =>
    sbind (DensityModel.lift s (if pp_up a then k <- updated_kde nobw kde s ;; c <- curve "kde" k xr idx ;; Ok [:: DensityCurve "up" c.1 c.2] else Ok [::])) (fun s m2 =>
    sbind (DensityModel.lift s (if pp_win a then k <- kde (dX s) nobw (d_w s) ;; c <- curve "kde" k xr idx ;; Ok [:: DensityCurve "win" c.1 c.2] else Ok [::])) (fun s m3 =>
    sbind (if pp_mud a then sbind (estimate s) (fun s m => DensityModel.lift s (x <- at_idx m idx ;; Ok [:: VLine "mud" x])) else (s, Ok [::])) (fun s m4 =>
    DensityModel.lift s (m5 <- (if pp_true a is Some t then
                   if pp_true_on a then x <- at_idx t idx ;; Ok [:: VLine "true" x] else Ok [::]
                 else Ok [::]) ;;
          Ok (m1 ++ m2 ++ m3 ++ m4 ++ m5)))))))).1.
  move=> hQ; rewrite /DensityModel.lift; cbn [sbind]; case: (of_opt _ _) => [d|//]; cbn [sbind]; case: (if pp_in a then _ else _) => [m1|//]; cbn [sbind].
  case: (if pp_up a then _ else _) => [m2|//]; cbn [sbind]; case: (if pp_win a then _ else _) => [m3|//]; cbn [sbind].
  case: (pp_mud a) => //; rewrite hQ (estimate_up _ eu em) -hQ; cbn [sbind].
  by case: (at_idx m idx).
case: (pp_range a) => [r|]; first by apply: step; rewrite /same_but_domain put_dom_id.
case: (fit_domain _ _ _ _) => [B|e]; last by rewrite /= /same_but_domain put_dom_id.
by apply: step.
Qed.
Lemma same_trans (P Q T : dprob) : same_but_domain P Q -> same_but_domain Q T -> same_but_domain P T.
Proof. by rewrite /same_but_domain => -> ->. Qed.
Lemma same_up (P Q : dprob) m : d_up P <> None -> estimate P = (P, Ok m) -> same_but_domain P Q ->
  d_up Q <> None /\ estimate Q = (Q, Ok m).
Proof. by move=> eu em e; split; rewrite e //; exact: estimate_up. Qed.
Lemma dist_keeps l yl n : forall (P : dprob) m j, d_up P <> None -> estimate P = (P, Ok m) ->
  same_but_domain P (dist_axes P l yl j n).1.
Proof.
elim: n => [|n ih] P m j eu em; first by rewrite /= /same_but_domain put_dom_id.
cbn [AdcModel.dist_axes]; rewrite /DensityModel.lift; case: (guard _ _) => [t0|e]; last by rewrite /= /same_but_domain put_dom_id.
cbn [sbind]; have := plot_keeps j (pp_dist l) eu em; case: (param_plot P j _) => Q [a|e] hQ; simpl in hQ; cbn [sbind]; last by [].
have [u2 m2] := same_up eu em hQ; have := ih Q m j.+1 u2 m2; case: (dist_axes Q _ _ _ _) => T [b|e] hT; simpl in hT; cbn [sbind];
  exact: (same_trans hQ hT).
Qed.

(** C137: the row of a window is the MUD point and the expected ratio of the problem for the times
    inside the window, whatever else is drawn. *)
Theorem C137_row (a : ast) w nc mp yl ti sp figs cl a' F P : time_window a w "pca" nc mp yl ti sp figs cl = (a', (F, Ok P)) ->
  exists tm P0 P1 m, [/\ in_window stamps parse (a_st a) w = Ok tm,
    mud_problem (a_st a) "pca" None None nc None (Some (MBools tm)) None = Ok P0,
    estimate P0 = (P1, Ok m), estimate P = (P, Ok m) & (expected_ratio P).2 = (expected_ratio P1).2].
Proof.
rewrite /adcirc_time_window; case ew: (in_window _ _ _ _) => [tm|//].
have [k1 k2 _ _] := @C133_components_kept R D trunc pca_components svd_v a "pca" nc (Some (MBools tm)).
move: k1 k2; case: (mud_problem_pca _ _ _ _ _ _ _ _) => a1 r /= k1 k2; rewrite k1.
case eP: (mud_problem _ _ _ _ _ _ _ _) => [P0|//]; case em: (estimate P0) => [P1 [m|//]].
have [f1 f2 f3 f4 f5] := fresh eP.
have [_ up1 _ _ em1] := estimate_fresh f1 f2 f3 f4 em.
case et: (match ti with Some _ => _ | None => _ end) => [P2 r2].
have e2 : match r2 with Ok _ => P2 = P1 | Err _ => True end.
  case: ti et => [t|] /=; last by case=> <- <-.
  case er: (expected_ratio P1) => [P3 [e|x]] /= [<- <-] //.
  by have := ratio_up (ddom P1) up1 (congr1 snd er); rewrite put_dom_id er => -[->].
case: r2 e2 {et} => [t2|//] ->; rewrite /astep => h.
exists tm, P0, P1, m.
suff hs : same_but_domain P1 P.
  split=> //; first by case: (same_up up1 em1 hs).
  case er: (expected_ratio P1).2 => [e|x]; first by rewrite hs (ratio_up _ up1 er).
  rewrite hs; move: er; rewrite /DensityModel.expected_ratio /ensure_up; cbn [put_dom d_up d_r d_w].
  by case: (d_up P1) up1.
have same0 : same_but_domain P1 P1 by rewrite /same_but_domain put_dom_id.
have qstep Q (rr : res (AdcModel.afig R)) on : same_but_domain P1 Q ->
   (let (fs, x) := (if on then match (Q, rr) with
      | (_, Err e) => ([::], Err e) | (P', Ok f) => let (fs, r) := ([::], Ok P') in (f :: fs, r) end
    else ([::], Ok Q)) in x) = Ok P -> same_but_domain P1 P.
  by move=> hQ; case: on; case: (rr) => [f|e] // [<-].
have dstep on (X : seq (AdcModel.afig R) * res dprob) : X = (if on then
     match (match s_lref (a_st a1) with
            | Some l => let (P', r) := updated_dist_plot pdf nokw nobw uniform norm01 kde kde_pdf trunc curve P1 (Some l) yl in
                        (P', rmap (afig_of t2 (named "updated_dist_" nc (count id tm)) sp cl) r)
            | None => (P1, Err AttributeError) end) with
     | (_, Err e) => ([::], Err e)
     | (P', Ok f) => let (fs, r) := (if fig_in "learned_qoi" figs || fig_in "all" figs then
          match (P', rmap (afig_of t2 "qoi_{num_components}_{ndata}"%string sp cl) (qoi_fig tri P' nc)) with
          | (_, Err e) => ([::], Err e) | (P', Ok f) => let (fs, r) := ([::], Ok P') in (f :: fs, r) end
          else ([::], Ok P')) in (f :: fs, r)
     end
   else if fig_in "learned_qoi" figs || fig_in "all" figs then
          match (P1, rmap (afig_of t2 "qoi_{num_components}_{ndata}"%string sp cl) (qoi_fig tri P1 nc)) with
          | (_, Err e) => ([::], Err e) | (P', Ok f) => let (fs, r) := ([::], Ok P') in (f :: fs, r) end
          else ([::], Ok P1)) -> X.2 = Ok P -> same_but_domain P1 P.
  case: on => [|-> hX]; last first.
    apply: (qstep P1 (rmap (afig_of t2 "qoi_{num_components}_{ndata}"%string sp cl) (qoi_fig tri P1 nc)) (fig_in "learned_qoi" figs || fig_in "all" figs) same0).
    by rewrite -hX; case: (if _ then _ else _).
  case: (s_lref _) => [l|->] //.
  have := @dist_keeps (Some l) yl (dim (dX P1) 1) P1 m 0 up1 em1; rewrite -/(updated_dist_plot pdf nokw nobw uniform norm01 kde kde_pdf trunc curve P1 (Some l) yl).
  case: (updated_dist_plot _ _ _ _ _ _ _ _ _ _ _ _) => Q [ax|e] /= hQ -> //= hX.
  apply: (qstep Q (rmap (afig_of t2 "qoi_{num_components}_{ndata}"%string sp cl) (qoi_fig tri Q nc)) (fig_in "learned_qoi" figs || fig_in "all" figs) hQ).
  by rewrite -hX; case: (if _ then _ else _).
move: h; case: (fig_in "ts-pca" figs || fig_in "all" figs).
  case: (rmap _ (pca_vector_plot _ _ _)) => [f|//].
  set Y := (if _ then _ else _) => h.
  apply: (dstep (fig_in "updated_dist" figs || fig_in "all" figs) Y) => //.
  by move: h; case: Y => fs r0 [_ _ ->].
set Y := (if _ then _ else _) => h.
apply: (dstep (fig_in "updated_dist" figs || fig_in "all" figs) Y) => //.
by move: h; case: Y => fs r0 [_ _ ->].
Qed.

(** C137: a window that raises ends the command: the figures finished by then remain, and no table
    is printed, not even for the windows before it. *)
Theorem C137_stops file nc t1 t2 lx ly p1 p2 sigma mv mz cut pf seed sp g g1 ds s ts mf
    (F : nat -> seq afig) (P : nat -> dprob) (m : nat -> seq R) (e : nat -> xnum) j Fj x :
  let n := minn (size t1) (size t2) in
  adcirc file sigma seed (Nd [:: 1; 2]%N [:: 0; 0]) g = (g1, Ok (ds, s)) ->
  preliminaries ds s pf t1 t2 lx ly mv mz cut sp ts mf -> (j < n)%N ->
  (forall i, (i < j)%N -> alone s nc pf sp (limits p1 p2 n i) i (window t1 t2 i) = (F i, Ok (P i)) /\
     exists P', estimate (P i) = (P', Ok (m i)) /\ (expected_ratio P').2 = Ok (e i)) ->
  alone s nc pf sp (limits p1 p2 n j) j (window t1 t2 j) = (Fj, Err x) ->
  adcirc_solve file nc t1 t2 lx ly p1 p2 sigma mv mz cut pf seed sp g =
  (g1, (AdcFigs ts mf (flatten [seq F i | i <- iota 0 j] ++ Fj), Err x)).
Proof.
move=> n el [hts hmf] hj hw hx; rewrite /CliModel.adcirc_solve (el : adcirc file sigma seed (default_sensors R) g = _); congr (_, _).
have sz : size (zip t1 t2) = n by rewrite size_zip.
rewrite sz.
have -> : (if has (String.eqb "full_ts") pf || has (String.eqb "all") pf then
             w <- wind ds ;; rmap (@Some _) (adcirc_ts_plot parse s (zip t1 t2) (Some w) (Some [seq (x, ly) | x <- lx]) sp) else Ok None) = Ok ts.
  by case: ifP hts => _ => [[wd -> [f -> /= ->]]|->].
have -> : (if has (String.eqb "mesh") pf || has (String.eqb "all") pf then
               gr <- grid ds ;; z <- zoom_of mz ;;
               rmap (@Some _) (tri_mesh_plot mesh gr mv (Some [:: Posz 0]) (Some z) cut sp) else Ok None) = Ok mf.
  by case: ifP hmf => _ => [[gr [z [-> /= -> [f -> /= ->]]]]|->].
set yls := (if size (zip p1 p2) == n then _ else _).
have sj : size (take j (zip t1 t2)) = j by rewrite size_takel // sz ltnW.
have [||a' ea ew] := @loop_cat s nc pf sp yls F P m e (drop j (zip t1 t2)) (take j (zip t1 t2)) (AST s None) 0 => //.
  move=> i; rewrite sj add0n => hi yl; have hin := ltn_trans hi hj.
  by rewrite /yl limitsE // nth_take // windowE //; exact: hw.
rewrite cat_take_drop in ew; rewrite ew sj add0n (drop_nth (""%string, ""%string)) ?sz // windowE //.
cbn [CliModel.windows_loop]; rewrite limitsE //.
have [w1 _] := @window_state a' (AST s None) (window t1 t2 j) nc 50 (limits p1 p2 n j) (Some (window_title j)) sp (FigNames pf) false ea.
move: w1; rewrite [X in _ = X -> _]hx; case: (time_window _ _ _ _ _ _ _ _ _ _) => a1 [fs r] /= [-> ->] /=.
by rewrite /=.
Qed.

(** Without -t1 or without -t2 no window is solved and nothing is printed. *)
Theorem C137_no_windows file nc t1 t2 lx ly p1 p2 sigma mv mz cut pf seed sp g g1 ds s ts mf :
  adcirc file sigma seed (Nd [:: 1; 2]%N [:: 0; 0]) g = (g1, Ok (ds, s)) ->
  preliminaries ds s pf t1 t2 lx ly mv mz cut sp ts mf -> t1 = [::] \/ t2 = [::] ->
  adcirc_solve file nc t1 t2 lx ly p1 p2 sigma mv mz cut pf seed sp g = (g1, (AdcFigs ts mf [::], Ok None)).
Proof.
move=> el [hts hmf] ht; rewrite /CliModel.adcirc_solve (el : adcirc file sigma seed (default_sensors R) g = _); congr (_, _).
have ez : zip t1 t2 = [::] by case: ht => ->; [case: (t2) | case: (t1)].
rewrite ez in hts *.
have -> : (if has (String.eqb "full_ts") pf || has (String.eqb "all") pf then
             w <- wind ds ;; rmap (@Some _) (adcirc_ts_plot parse s [::] (Some w) (Some [seq (x, ly) | x <- lx]) sp) else Ok None) = Ok ts.
  by case: ifP hts => _ => [[wd -> [f -> /= ->]]|->].
have -> : (if has (String.eqb "mesh") pf || has (String.eqb "all") pf then
               gr <- grid ds ;; z <- zoom_of mz ;;
               rmap (@Some _) (tri_mesh_plot mesh gr mv (Some [:: Posz 0]) (Some z) cut sp) else Ok None) = Ok mf.
  by case: ifP hmf => _ => [[gr [z [-> /= -> [f -> /= ->]]]]|->].
by [].
Qed.

(** With a seed, everything shown and printed is the same in every run; sigma has no effect. *)
Theorem C137_reproducible file nc t1 t2 lx ly p1 p2 sigma sigma' mv mz cut pf q sp g g' :
  (adcirc_solve file nc t1 t2 lx ly p1 p2 sigma mv mz cut pf (Some q) sp g).2 =
  (adcirc_solve file nc t1 t2 lx ly p1 p2 sigma' mv mz cut pf (Some q) sp g').2.
Proof.
have ep : (adcirc file sigma (Some q) (default_sensors R) g).2 = (adcirc file sigma' (Some q) (default_sensors R) g').2.
  rewrite /load_adcirc_prob /load_with; case: file => [ds|//]; case: (load _ _ _) => s0 [u|//].
  rewrite /measurements_from_reference; case: (s_tv _) => [[tv|]|//]; case: (s_sd _) => [x|//]; rewrite /add_noise.
    case: (reseed q) => [g1|//]; case: (randn _ _) => z g2; case: (add_last _ _) => [y|//].
    by case: (set_meas _ _) => s1 [].
  by case: (reseed q) => [g1|//]; case: (randn _ _) => z g2; case: (add_last _ _) => [y|//].
rewrite /CliModel.adcirc_solve; case: (adcirc file sigma _ _ g) ep => ga ra; case: (adcirc file sigma' _ _ g') => gb rb /= <-.
by case: ra => [[ds s]|//].
Qed.

(** C137: with more than three windows and the time series asked for, the command raises IndexError
    before any window is solved or figure finished. *)
Theorem C137_too_many file nc t1 t2 lx ly p1 p2 sigma mv mz cut pf seed sp g g1 ds s wx wy
    (n p k t : nat) d lam se ti meas (bounds : seq (R * R)) (places : seq R) :
  adcirc file sigma seed (Nd [:: 1; 2]%N [:: 0; 0]) g = (g1, Ok (ds, s)) -> wants pf "full_ts" ->
  setup s n p k t d lam se ti -> Nd.shape se = [:: k; 2%N] -> (0 < k)%N -> (0 < t)%N -> s_meas s = Some (NArr meas) ->
  wind ds = Ok (wx, wy) -> size wx = size wy ->
  (3 < size t1)%N -> (3 < size t2)%N -> size bounds = minn (size t1) (size t2) ->
  (forall i, (i < size bounds)%N -> parse (nth ""%string t1 i) = Ok (nth (0, 0) bounds i).1 /\ parse (nth ""%string t2 i) = Ok (nth (0, 0) bounds i).2) ->
  size places = size lx -> (forall i, (i < size lx)%N -> parse (nth ""%string lx i) = Ok (nth 0 places i)) ->
  adcirc_solve file nc t1 t2 lx ly p1 p2 sigma mv mz cut pf seed sp g = (g1, (AdcFigs None None [::], Err IndexError)).
Proof.
move=> el hw su hse k0 t0 hm ewd sw n1 n2 sb hb spl hpl.
rewrite /CliModel.adcirc_solve (el : adcirc file sigma seed (default_sensors R) g = _) (proj2 (wantsP pf "full_ts") hw) ewd /=.
rewrite (@C134_ts_plot R parse s n p k t d lam se ti meas (zip t1 t2) bounds (Some (wx, wy)) (Some [seq (x, ly) | x <- lx])
  (Some [seq (x, ly) | x <- places]) sp su hse k0 t0 hm) ?size_zip //.
- by rewrite leq_min n1 n2.
- move=> i hi; have := hb i; rewrite sb hi windowE // => /(_ isT); exact.
- rewrite !size_map; split=> // i hi; rewrite (nth_map ""%string) // (nth_map 0) ?spl //; split=> //; exact: hpl.
Qed.
End CliProps2.
