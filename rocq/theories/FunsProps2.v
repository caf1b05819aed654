(** Properties of funs.data_prob (C64). *)
Set Warnings "-notation-overridden,-ambiguous-paths".
From mathcomp Require Import all_ssreflect all_algebra.
From Coq Require Import String.
From Verif Require Import Py Nd Spec LinAlg Dmx LgpModel WmeModel LinProps WmeProps WmeProps2.
From Verif Require Import Xnum XnumProofs UtilModel DensityModel NdProofs BayesModel UtilModel2 UtilProps
  StModel StProps StProps2 StProps3 StProps4 StProps5 FunsModel.
Set Implicit Arguments. Unset Strict Implicit. Unset Printing Implicit Defensive.
Import Order.Theory GRing.Theory Num.Theory.
Local Open Scope ring_scope.

Section DataProb.
Variable R : rcfType.
Notation xnum := (xnum R).
Notation nd := (nd R).
Notation st := (st R).
Variables (D KW BW : Type).
Variable pdf : D -> KW -> nd -> res (pdfval xnum).
Variables (nokw : KW) (nobw : BW).
Variable uniform : seq R -> seq R -> D.
Variable norm01 : D.
Variable kde : nd -> BW -> seq xnum -> res D.
Variable kde_pdf : D -> nd -> res (seq xnum).
Variable trunc : R -> R.
Variable pca_components : nd -> int -> res nd.
Variable svd_v : nd -> res nd.
Notation data_prob := (data_prob pdf nokw nobw uniform norm01 kde kde_pdf trunc pca_components svd_v).
Notation set_initial := (set_initial pdf nokw uniform).
Notation set_observed := (set_observed pdf nokw norm01).
Notation estimate := (estimate pdf nokw nobw uniform norm01 kde kde_pdf).
Implicit Types (lam qoi d : nd) (s : st).

(** The data set data_prob builds. *)
Definition dp_set lam qoi (tv m : option nd) (sd : option R) (x : string) (dom lref ti se : option nd) : dset R :=
  [:: ("lam", VArr lam); ("data", VArr qoi); ("true_vals", pyv_of tv); ("measurements", pyv_of m);
      ("std_dev", if sd is Some x then VNum x else VNone R); ("sample_dist", VStr R x);
      ("domain", pyv_of dom); ("lam_ref", pyv_of lref); ("times", pyv_of ti); ("sensors", pyv_of se)]%string.

Lemma dp_load lam qoi tv m sd x dom lref ti se :
  load (st0 R) (dp_set lam qoi tv m sd x dom lref ti se) (@NName R) =
  assign (st0 R) [:: ("sample_dist", VStr R x); ("domain", pyv_of dom); ("sensors", pyv_of se);
    ("times", pyv_of ti); ("lam_ref", pyv_of lref); ("std_dev", if sd is Some x then VNum x else VNone R);
    ("true_vals", pyv_of tv); ("measurements", pyv_of m); ("lam", VArr lam); ("data", VArr qoi)]%string.
Proof. by rewrite (C61_load_assigns_in_order _ (dp_set lam qoi tv m sd x dom lref ti se)). Qed.

(** C64: unless sample_dist is "u" or "n" - the default is "uniform" - the call raises
    ValueError, whatever the other arguments. *)
Theorem C64_default_fails lam qoi tv m sd x dom lref ti se me init :
  x <> "u"%string -> x <> "n"%string ->
  data_prob lam qoi tv m sd x dom lref ti se me init = Err ValueError.
Proof.
move=> /String.eqb_neq h1 /String.eqb_neq h2; rewrite /FunsModel.data_prob -/(dp_set _ _ _ _ _ _ _ _ _ _) dp_load /=.
by rewrite /set_field /= /set_dist h1 h2.
Qed.

Lemma set_lam_keeps s lam : [/\ s_sd (set_lam s lam).1 = s_sd s, s_meas (set_lam s lam).1 = s_meas s &
  s_sens (set_lam s lam).1 = s_sens s /\ s_times (set_lam s lam).1 = s_times s].
Proof.
have kd s' a : [/\ s_sd (set_domain s' a).1 = s_sd s', s_meas (set_domain s' a).1 = s_meas s' &
    s_sens (set_domain s' a).1 = s_sens s' /\ s_times (set_domain s' a).1 = s_times s'].
  by rewrite /set_domain; case: (rbind _ _).
rewrite /set_lam; case: (if _ then _ else _) => [l|] //.
set m := (match s_dom s with Some _ => _ | None => _ end).
have : [/\ s_sd m.1 = s_sd s, s_meas m.1 = s_meas s & s_sens m.1 = s_sens s /\ s_times m.1 = s_times s].
  by rewrite /m; case: (s_dom s) => [dd|] //; case: (bounds_of l).
case: m => s1 [u|e] //= [h1 h2 [h3 h4]].
by case: (s_dist s1).
Qed.

Lemma set_data_keeps s a : s_sd (set_data s a).1 = s_sd s /\ s_meas (set_data s a).1 = s_meas s.
Proof.
case e: (data_2d a) => [dd|er]; last by rewrite /set_data e.
rewrite (set_dataE _ e); case: (s_sens s) => [se|]; case: (s_times s) => [ti|] //.
- by case: (shape0 ti) => // ?; case: (shape0 se) => // ?; case: ifP.
- by case: (shape0 se) => // ?; case: ifP.
- by case: (shape0 ti) => // ?; case: ifP.
Qed.

Lemma no_meas s me (sm tm xm : option mask) dw sw kc P :
  s_meas s = Some (NObj R) \/ s_sd s = None ->
  st_mud_problem D trunc pca_components svd_v s me dw sw kc sm tm xm <> Ok P.
Proof.
move=> h; rewrite /st_mud_problem; case eo: (sample_data s sm tm xm) => [o|//]; cbn [rbind].
case: h => [h|h]; last by rewrite h /residuals; case: (sd_meas o).
move: eo; rewrite /sample_data h.
case: (s_data s) => [d|] //; cbn [rbind of_opt]; case: (s_lam s) => [lam|] //; cbn [rbind of_opt].
case: (n_samples s) => [n|] //; cbn [rbind]; case: (n_sensors s) => [k|] //; cbn [rbind].
case: (n_ts s) => [t|] //; cbn [rbind]; case: (guard _ _) => //= _.
by case: (_ == 1%N).
Qed.

(** C64: data_prob returns only if sample_dist is "u" or "n", the method is known, domain,
    lam_ref, sensors, times, measurements and std_dev are all given, and so is qoi_true unless
    there is just one sensor and one time. *)
Theorem C64_needs_everything lam qoi tv m sd x dom lref ti se me init P :
  data_prob lam qoi tv m sd x dom lref ti se me init = Ok P ->
  [/\ x = "u"%string \/ x = "n"%string, known_method me, dom <> None /\ lref <> None,
      m <> None /\ sd <> None &
      exists se' ti', [/\ se = Some se', ti = Some ti' & tv = None -> (dim se' 0 * dim ti' 0)%N = 1%N]].
Proof.
rewrite /FunsModel.data_prob -/(dp_set _ _ _ _ _ _ _ _ _ _) dp_load.
case el: (assign _ _) => [s [u|//]]; cbn [rbind].
case em: (st_mud_problem _ _ _ _ _ _ _ _ _ _ _ _) => [P0|//] _.
have km : known_method me.
  by case e: (known_method me) => //; case: (C63_unknown_method (D := D) (trunc := trunc) e em).
move: el; cbn [assign].
case ex: (set_field (st0 R) "sample_dist" _) => [s1 [u1|//]].
have hx : x = "u"%string \/ x = "n"%string.
  move: ex; rewrite /set_field /= /set_dist.
  case e1: (x =? "u")%string; first by move/String.eqb_eq: e1; left.
  by case e2: (x =? "n")%string => //=; move/String.eqb_eq: e2; right.
case ed: (set_field s1 "domain" _) => [s2 [u2|//]].
have hd : dom <> None by move=> e; rewrite e in ed.
case es: (set_field s2 "sensors" _) => [s3 [u3|//]].
have {es} [e3 e3d] : s_sens s3 = se /\ s_dom s3 = s_dom s2 by case: se es => [a|] [<-].
case et: (set_field s3 "times" _) => [s4 [u4|//]].
have {et} [e4 e4s] : s_times s4 = ti /\ s_sens s4 = se by rewrite -e3; case: ti et => [a|] [<-].
case er: (set_field s4 "lam_ref" _) => [s5 [u5|//]].
have hl : lref <> None.
  by move=> e; move: er; rewrite e /set_field /=; case: (s_dom s4) => [q|] //; case: ifP.
have [e5 e5s] : s_times s5 = ti /\ s_sens s5 = se.
  have [h1 h2] := @set_field_frame R s4 "lam_ref" (pyv_of lref) ltac:(by []) ltac:(by []) ltac:(by []).
  by rewrite er /= in h1 h2; rewrite h1 h2.
case edv: (set_field s5 "std_dev" _) => [s6 [u6|//]].
have [e6 e6s e6d] : [/\ s_times s6 = ti, s_sens s6 = se & s_sd s6 = sd].
  by rewrite -e5 -e5s; case: sd edv => [a|] [<-].
case etv: (set_field s6 "true_vals" _) => [s7 [u7|//]].
have E7 : set_tv s6 tv = (s7, Ok u7) by case: tv etv.
have [e7 e7s e7d] : [/\ s_times s7 = ti, s_sens s7 = se & s_sd s7 = sd].
  by rewrite -e6 -e6s -e6d; move: E7; rewrite /set_tv; case: (meas_reshape _ _) => // q [<-].
have [se' [ti' [hse hti htv]]] : exists se' ti', [/\ se = Some se', ti = Some ti' &
    tv = None -> (dim se' 0 * dim ti' 0)%N = 1%N].
  move: E7; rewrite /set_tv /meas_reshape /n_sensors /n_ts e6 e6s.
  case: (se) => [se'|] //; cbn [rbind of_opt]; rewrite /shape0.
  case: ifP => // _; cbn [rbind]; case: (ti) => [ti'|] //; cbn [rbind of_opt].
  case: ifP => // _; cbn [rbind] => h.
  by exists se', ti'; split=> // e; move: h; rewrite e; case: eqP.
case eme: (set_field s7 "measurements" _) => [s8 [u8|//]].
have E8 : set_meas s7 m = (s8, Ok u8) by case: m eme.
have e8d : s_sd s8 = sd by rewrite -e7d; move: E8; rewrite /set_meas; case: (meas_reshape _ _) => // q [<-].
have e8m : m = None -> s_meas s8 = Some (NObj R).
  move=> e; move: E8; rewrite e /set_meas /meas_reshape.
  case: (n_sensors s7) => [k|] //; cbn [rbind]; case: (n_ts s7) => [t|] //; cbn [rbind].
  by case: ifP => // _ [<-].
case ela: (set_field s8 "lam" _) => [s9 [u9|//]].
have E9 : set_lam s8 lam = (s9, Ok u9) by [].
have [e9d e9m _] := set_lam_keeps s8 lam; rewrite E9 /= in e9d e9m.
case eda: (set_field s9 "data" _) => [s10 [u10|//]] [h10].
have E10 : set_data s9 qoi = (s10, Ok u10) by [].
have [e10d e10m] := set_data_keeps s9 qoi; rewrite E10 /= in e10d e10m.
split=> //; last by exists se', ti'.
split=> e.
- by apply: (no_meas _ em); left; rewrite -h10 e10m e9m e8m.
- by apply: (no_meas _ em); right; rewrite -h10 e10d e9d e8d e.
Qed.

(** C64: with everything given and consistent - n samples lam (n x p) and qoi (n x k*t), k
    sensors, t times, k*t measurements and true values, lam_ref inside the domain - and the
    default method, data_prob builds the problem with samples lam, domain dom, unit weights
    and QoI (sum of (measurement - qoi) / std_dev) / sqrt n, sets the initial and the standard
    normal observed distribution, computes the estimate and returns the problem. *)
Theorem C64_data_prob lam qoi tv m sd x n p k t dom lref ti se init :
  x = "u"%string \/ x = "n"%string ->
  nd_wf dom -> Nd.shape dom = [:: p; 2%N] ->
  nd_wf se -> (0 < ndim se)%N -> dim se 0 = k ->
  nd_wf ti -> Nd.shape ti = [:: t] \/ Nd.shape ti = [:: t; 1%N] ->
  size (data lref) = p -> (forall i, (i < p)%N -> ent dom i 0 <= nth 0 (data lref) i <= ent dom i 1) ->
  size (data tv) = (k * t)%N -> size (data m) = (k * t)%N -> (0 < k * t)%N -> sd <> 0 ->
  nd_wf lam -> Nd.shape lam = [:: n; p] -> nd_wf qoi -> Nd.shape qoi = [:: n; (k * t)%N] ->
  exists P0, [/\ rows (dX P0) = rows lam, ddom P0 = dom, d_w P0 = nseq n (Fin 1),
    dy P0 = Nd [:: n; 1%N] [seq (\sum_(j < k * t) (nth 0 (data m) j - ent qoi i j) / sd) / Num.sqrt n%:R
                           | i <- iota 0 n] &
    forall P, data_prob lam qoi (Some tv) (Some m) (Some sd) x (Some dom) (Some lref) (Some ti) (Some se)
                "wme" init = Ok P <->
      exists P1 P2 v, [/\ set_initial P0 (Some init) = (P1, Ok tt),
        set_observed P1 (Some norm01) = (P2, Ok tt) & estimate P2 = (P, Ok v)]].
Proof.
move=> hx wd hd wse nse dse wti hti slr inl stv sm kt sd0 wl hl wq hq.
have nti : (0 < ndim ti)%N by rewrite /ndim; case: hti => ->.
have dti : dim ti 0 = t by rewrite /dim; case: hti => ->.
set ds := dp_set lam qoi (Some tv) (Some m) (Some sd) x (Some dom) (Some lref) (Some ti) (Some se).
have E := @C61_complete_load R ds x n p k t dom se ti lref sd tv m lam qoi.
have {}E := E ltac:(by []) hx wd hd nse dse nti dti slr inl stv sm wl hl wq hq.
set s := ST _ _ _ _ _ _ _ _ _ _ in E.
have su : setup s n p k t qoi lam se ti by split.
have [P0 [e1 e2 e3 e4 e5]] := @C62_wme_map R D trunc pca_components svd_v s n p k t qoi lam se ti None None None
  (iota 0 n) (iota 0 t) (iota 0 k) sd dom 2 su ltac:(by []) erefl erefl erefl
  ltac:(by rewrite !size_iota) ltac:(by []) erefl sd0 erefl hd.
exists P0; split=> //.
- by rewrite e2 (rows_of wl hl).
- by rewrite e5 size_iota.
- rewrite e3 size_iota; congr Nd; apply/eq_map => i; rewrite /wme_qoi; congr (_ / _).
  by rewrite (sum_blocks (fun q => (nth 0 (data m) q - ent qoi i q) / sd)).
move=> P; rewrite /FunsModel.data_prob -/(dp_set _ _ _ _ _ _ _ _ _ _) -[(_ :: _ : dset R)]/ds.
rewrite -[@NName R]/(same_names R) E; cbn [rbind]; rewrite e1; cbn [rbind].
case: (DensityModel.set_initial _ _ _ P0 _) => P1 [[]|e] /=; last first.
  by split=> // -[P1' [P2 [v [] []]]].
case eo: (DensityModel.set_observed _ _ _ P1 _) => [P2 [[]|e]] /=; last first.
  by split=> // -[P1' [P2' [v [[<-]]]]]; rewrite eo.
case ee: (DensityModel.estimate _ _ _ _ _ _ _ P2) => [P3 [v|e]] /=; last first.
  by split=> // -[P1' [P2' [v [[<-]]]]]; rewrite eo => -[<-]; rewrite ee.
split=> [[<-]|]; first by exists P1, P2, v.
by move=> [P1' [P2' [v' [[<-]]]]]; rewrite eo => -[<-]; rewrite ee => -[-> _].
Qed.
End DataProb.
