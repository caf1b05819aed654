(** Property C133: adcirc_time_window. *)
Set Warnings "-notation-overridden,-ambiguous-paths".
From Coq Require Import String ZArith.
From mathcomp Require Import all_ssreflect all_algebra.
From mathcomp Require Import zify.
From mathcomp.algebra_tactics Require Import ring.
From Verif Require Import Py Nd Xnum XnumProofs UtilModel DensityModel NdProofs DensityProps3 UtilModel2 UtilProps
  StModel StProps StProps2 StProps3 StProps4 StProps5 DrawModel DrawProps DrawProps3 ContModel PoisModel StExModel StExProps
  PoisExModel PoisExProps PoisExProps2 PoisExProps3 AdcModel.
Set Implicit Arguments. Unset Strict Implicit. Unset Printing Implicit Defensive.
Import Order.Theory GRing.Theory Num.Theory.
Local Open Scope ring_scope.

Section AdcProps.
Variable R : rcfType.
Notation xnum := (xnum R).
Notation nd := (nd R).
Variables (D KW BW : Type) (pdf : D -> KW -> nd -> res (pdfval xnum)) (nokw : KW) (nobw : BW)
  (uniform : seq R -> seq R -> D) (norm01 : D) (kde : nd -> BW -> seq xnum -> res D)
  (kde_pdf : D -> nd -> res (seq xnum)) (trunc : R -> R).
Variables (pca_components : nd -> int -> res nd) (svd_v : nd -> res nd).
Variable curve : string -> D -> seq (R * R) -> int -> res (seq R * seq R).
Variable tri : seq R -> seq R -> seq R -> res unit.
Variables (stamps : nd -> res (seq R)) (parse : string -> res R).
Notation dprob := (dprob R D).
Notation mark := (mark R).
Notation ast := (ast R).
Notation afig := (afig R).
Notation estimate := (estimate pdf nokw nobw uniform norm01 kde kde_pdf).
Notation expected_ratio := (expected_ratio pdf nokw nobw uniform norm01 kde kde_pdf).
Notation mud_problem := (st_mud_problem D trunc pca_components svd_v).
Notation param_plot := (param_plot pdf nokw nobw uniform norm01 kde kde_pdf trunc curve).
Notation dist_axes := (dist_axes pdf nokw nobw uniform norm01 kde kde_pdf trunc curve).
Notation updated_dist_plot := (updated_dist_plot pdf nokw nobw uniform norm01 kde kde_pdf trunc curve).
Notation mud_problem_pca := (mud_problem_pca D trunc pca_components svd_v).
Notation time_window := (adcirc_time_window pdf nokw nobw uniform norm01 kde kde_pdf trunc pca_components svd_v curve tri
  stamps parse).

(** ** Specification *)
(** The positions of the times strictly between [a] and [b], in order. *)
Definition inside (ts : seq R) (a b : R) : seq nat := filter (fun j => (a < nth 0 ts j) && (nth 0 ts j < b)) (iota 0 (size ts)).
(** An interval is wider by this ratio on both sides when it has been widened [n] times by 5%. *)
Definition wq (n : nat) : R := ((11%:R / 10%:R) ^+ n - 1) / 2%:R.

(** ** The window *)
(** C133: the window is open: a time at one of its ends is left out. *)
Theorem C133_window (s : st R) w ti ts a b : s_times s = Some ti -> stamps ti = Ok ts -> parse w.1 = Ok a -> parse w.2 = Ok b ->
  exists tm, [/\ in_window stamps parse s w = Ok tm, size tm = size ts,
    picked (size ts) (Some (MBools tm)) = Ok (inside ts a b) & count id tm = size (inside ts a b)].
Proof.
move=> et es ea eb; exists [seq (a < x) && (x < b) | x <- ts].
rewrite /in_window et; cbn [of_opt rbind]; rewrite es; cbn [rbind]; rewrite ea; cbn [rbind]; rewrite eb.
have eq : inside ts a b = filter (nth false [seq (a < x) && (x < b) | x <- ts]) (iota 0 (size ts)).
  by rewrite /inside; apply/eq_in_filter => j; rewrite mem_iota add0n => hj; rewrite (nth_map 0).
split=> //; first by rewrite size_map.
  by rewrite /picked /resolve size_map eqxx eq.
rewrite /inside size_filter count_map.
have {1}-> : ts = [seq nth 0 ts j | j <- iota 0 (size ts)] by rewrite -/(mkseq _ _) mkseq_nth.
by rewrite count_map.
Qed.

(** ** The problem *)
(** C133: method "pca" stores the components it used, for other methods the attribute stays what it was. *)
Theorem C133_components_kept (a : ast) method nc tm : let a' := (mud_problem_pca a method nc tm).1 in
  [/\ (mud_problem_pca a method nc tm).2 = mud_problem (a_st a) method None None nc None tm None,
      a_st a' = a_st a,
      method <> "pca"%string -> a' = a &
      method = "pca"%string -> forall P, mud_problem (a_st a) "pca" None None nc None tm None = Ok P ->
        exists o r c, [/\ sample_data (a_st a) None tm None = Ok o, residuals o (s_sd (a_st a)) = Ok r,
          pca_components r nc = Ok c & a_pca a' = Some c]].
Proof.
split=> //.
- by rewrite /AdcModel.mud_problem_pca /=; case: ifP => // _; case: (rbind _ _).
- by move=> /String.eqb_neq e; rewrite /AdcModel.mud_problem_pca /= e.
move=> -> P; rewrite /st_mud_problem /AdcModel.mud_problem_pca.
case: (sample_data _ _ _ _) => [o|//]; cbn [rbind]; case er: (residuals _ _) => [r|//]; cbn [rbind apply_weights].
rewrite /qoi_map /= /pca; case: (_ != _) => //; case ec: (pca_components r nc) => [c|//] /= _.
by exists o, r, c.
Qed.

(** C133: the problem for the times inside the window, with method "pca": [r i l] is the residual of
    sample [i] at sensor l / |T| and the time l mod |T| of the window. *)
Theorem C133_problem (a : ast) n p k t d lam se ti ts dom sd w lo hi nc c q :
  let s := a_st a in let T := inside ts lo hi in
  let r i l := (meas_at s t (l %/ size T) (nth 0%N T (l %% size T)) -
                ent d i ((l %/ size T) * t + nth 0%N T (l %% size T))) / sd in
  setup s n p k t d lam se ti -> s_meas s <> None -> s_sd s = Some sd -> s_dom s = Some dom ->
  nd_wf dom -> Nd.shape dom = [:: p; 2%N] -> stamps ti = Ok ts -> size ts = t -> parse w.1 = Ok lo -> parse w.2 = Ok hi ->
  (0 < k)%N -> T <> [::] ->
  pca_components (nd2 (k * size T) [seq [seq r i l | l <- iota 0 (k * size T)] | i <- iota 0 n]) nc = Ok c ->
  nd_wf c -> Nd.shape c = [:: q; (k * size T)%N] ->
  exists tm P, [/\ in_window stamps parse s w = Ok tm,
    mud_problem_pca a "pca" nc (Some (MBools tm)) = (AST s (Some c), Ok P),
    rows (dX P) = [seq row_of lam p i | i <- iota 0 n] /\ Nd.shape (dX P) = [:: n; p],
    ddom P = dom /\ d_w P = nseq n (Fin 1) &
    Nd.shape (dy P) = [:: n; q] /\
    rows (dy P) = [seq [seq \sum_(l < k * size T) r i l * ent c b l | b <- iota 0 q] | i <- iota 0 n]].
Proof.
move=> s T r su ms esd edm wdm hdm es sts ea eb k0 T0 ec wc hc.
have et : s_times s = Some ti by case: su => _ [].
have [tm [ew st eT _]] := C133_window et es ea eb; rewrite sts -/T in eT.
exists tm.
have T1 : (0 < size T)%N by case: (T) T0.
have w0 : (0 < size (iota 0 k) * size T)%N by rewrite size_iota muln_gt0 k0.
have sx : (None : option mask) <> None -> Nd.shape se = [:: k; 2%N] by [].
have eX : picked k None = Ok (iota 0 k) by [].
have eI : picked n None = Ok (iota 0 n) by [].
have erow : [seq flatten [seq [seq resid s d t i x j sd | j <- T] | x <- iota 0 k] | i <- iota 0 n] =
            [seq [seq r i l | l <- iota 0 (k * size T)] | i <- iota 0 n].
  apply/eq_map => i; apply: (@eq_from_nth _ 0); first by rewrite size_flatten_blocks !size_map !size_iota.
  rewrite size_flatten_blocks size_iota => l hl; rewrite (nth_map 0%N) ?size_iota // nth_iota // add0n.
  rewrite {1}(divn_eq l (size T)) nth_flatten_blocks ?size_iota ?ltn_mod ?ltn_divLR // nth_iota ?ltn_divLR //.
have emx : nd2 (k * size T) [seq [seq r i l | l <- iota 0 (k * size T)] | i <- iota 0 n] =
           resid_mx s d t (iota 0 n) (iota 0 k) T sd by rewrite /resid_mx size_iota erow.
rewrite emx in ec.
have hc' : Nd.shape c = [:: q; (size (iota 0 k) * size T)%N] by rewrite size_iota.
have [P [eP eX' eD eS eR]] := @C92_pca_map R D trunc pca_components svd_v s n p k t d lam se ti None (Some (MBools tm)) None _ _ _ sd dom
   su sx eI eT eX w0 ms esd edm hdm nc c q ec wc hc'.
have [o [eo ro _ [_ sho] _]] := residualsE su sx eI eT eX w0 ms esd.
rewrite size_iota in sho; have [shX wX] := mud_weights eo sho eP.
exists P; split=> //.
- rewrite /AdcModel.mud_problem_pca eP -/s eo; cbn [rbind]; rewrite ro; cbn [rbind].
  by rewrite -/(resid_mx s d t (iota 0 n) (iota 0 k) T sd) /pca /ndim (resid_wf s d t (iota 0 n) (iota 0 k) T sd).2 /= ec.
split; first by rewrite eS size_iota.
rewrite eR /projections size_iota.
rewrite {1}/dim (resid_wf s d t (iota 0 n) (iota 0 k) T sd).2 /= size_iota; apply/eq_in_map => i; rewrite mem_iota add0n => hi'.
apply/eq_map => b; apply: eq_bigr => l _; congr (_ * _).
rewrite -emx /ent rows_nd2 ?all_map; last by apply/allP => i' _ /=; rewrite size_map size_iota.
by rewrite (nth_map 0%N) ?size_iota // nth_iota // (nth_map 0%N) ?size_iota // nth_iota.
Qed.
End AdcProps.
