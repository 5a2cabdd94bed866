(** Both sides of the outline of the result of each operation. *)
From Coq Require Import QArith Qcanon Bool List Arith Lia Permutation.
From Verif Require Import QcTac Model_Base Model_Utils Model_Box Model_Geometry Model_Contour Model_Linear Model_Mixed Model_Shaped Model_Multipolygon Spec_Base Spec_Segment Spec_Clip Spec_Contour
  Spec_Relate Spec_Bounds Spec_Sweep Spec_Shaped Spec_Multipolygon Spec_RelateShaped Spec_Tight
  Proof_Base Proof_Line Proof_SegRel Proof_SegOps Proof_Relate6 Proof_SegLoops Proof_Contour Proof_Contour2 Proof_Edges Proof_Bounds Proof_Shrink Proof_Locate Proof_Locate3 Proof_Locate4 Proof_Sweep4 Proof_Sweep6 Proof_Sweep18 Proof_Parity
  Proof_Corner Proof_Region Proof_Ray Proof_Orient Proof_Nested Proof_Nested2 Proof_Bridge Proof_Odd Proof_Clip Proof_Ready Proof_Polygons Proof_Multi Proof_Multi2 Proof_Multi3
  Proof_RelateShaped Proof_Mix6 Proof_Tight1 Proof_Tight2 Proof_Tight3.
Import ListNotations.
Local Open Scope Qc_scope.
Notation O t := (outlines (flat_map rings t)).

Definition tight_out (l l' : list polygon) (outcome : clip_outcome) : Prop := forall g, outcome = Clips g -> two_sided (O l ++ O l') (geometry_rings g) /\ Forall simple_contour (geometry_rings g).
Lemma collect_maybe_rings l g : collect_maybe_empty_polygons l = Some g -> geometry_rings g = flat_map rings l.
Proof. intros E. destruct (collect_maybe l) as (g' & E' & _ & R). congruence. Qed.
Lemma collect_non_empty_rings l g : collect_non_empty_polygons l = Some g -> geometry_rings g = flat_map rings l.
Proof.
  intros E. destruct l as [|p l]; [discriminate|]. destruct (collect_non_empty (p :: l)) as (g' & E' & _ & R); [discriminate|]. congruence.
Qed.
Lemma tight_of (c : option geometry) l l' ps : (forall g, c = Some g -> geometry_rings g = flat_map rings ps) -> two_sided (O l ++ O l') (flat_map rings ps) -> Forall simple_contour (flat_map rings ps) -> tight_out l l' (clip_of c).
Proof. intros E T Si g Q. unfold clip_of in Q. destruct c as [h|]; [|discriminate]. injection Q as ->. rewrite (E g eq_refl). split; auto. Qed.
Lemma simple_list l : valid_polygons l -> Forall simple_contour (flat_map rings l).
Proof.
  intros V. apply Forall_forall. intros vs I. apply in_flat_map in I. destruct I as (p & Ip & J). pose proof (vm_each _ V) as E. rewrite Forall_forall in E.
  pose proof (vp_simple _ (E p Ip)) as Q. rewrite Forall_forall in Q. auto.
Qed.
Lemma simple_app l l' : Forall simple_contour (flat_map rings l) -> Forall simple_contour (flat_map rings l') -> Forall simple_contour (flat_map rings (l ++ l')).
Proof. intros A B. rewrite flat_map_app. apply Forall_app. auto. Qed.

Section Kept.
Variables l l' : list polygon.
Hypothesis V : valid_polygons l.
Hypothesis V' : valid_polygons l'.
Variables f f' : polygon -> bool.
Notation k := (filter f l). Notation k' := (filter f' l').
Notation m := (filter (fun p => negb (f p)) l). Notation m' := (filter (fun p => negb (f' p)) l').
Variables (shape : tree_shape) (fuel : nat).
Hypothesis Fuel : (enough (lists_count l l') <= fuel)%nat.
Let Vk : valid_polygons k := valid_filter f l V.
Let Vk' : valid_polygons k' := valid_filter f' l' V'.
Let Kf : (enough (lists_count k k') <= fuel)%nat := kept_fuel l l' f f' fuel Fuel.

Theorem tight_intersection low high low' high' : spread k low high -> spread k' low' high' ->
  tight_out l l' (clip_polygons shaped_intersection collect_maybe_empty_polygons fuel shape (Some (q_min high high'))
    (reaching (q_max low low') (q_min high high') (polygons_segments k)) (reaching (q_max low low') (q_min high high') (polygons_segments k'))).
Proof.
  intros Sp Sp'. destruct (prepare_list k Vk) as (r & P), (prepare_list k' Vk') as (r' & P'). rewrite (pl_segments _ _ P), (pl_segments _ _ P').
  change (reaching ?a ?b ?s) with (filter (reach a b) s). set (lw := q_max low low'). set (hg := q_min high high').
  destruct (lists_made k k' r r' P P' (reach lw hg) (reach lw hg)) with (op2 := andb) (sel := sel_intersection) (from_result := shaped_intersection)
    (limit := Some hg) (shape := shape) (fuel := fuel) as (ps & pieces & Er & Md & Si & _).
  - intros b e g I J L1 L2. assert (Q : reach lw hg e = true); [|destruct b; exact Q]. apply reach_true. unfold lw, hg, q_max, q_min. pose proof (lo_le_hi e).
    destruct b; cbn [full negb] in I, J; [destruct (list_range k r low high e Vk P Sp I) as (? & ? & ? & ?), (list_range k' r' low' high' g Vk' P' Sp' J) as (? & ? & ? & ?)
      |destruct (list_range k' r' low' high' e Vk' P' Sp' I) as (? & ? & ? & ?), (list_range k r low high g Vk P Sp J) as (? & ? & ? & ?)]; repeat qcase; split; qlra.
  - apply selects_intersection.
  - intros [] ; right; intros []; reflexivity.
  - auto.
  - unfold hg, q_min. destruct (qltb_spec high' high) as [L|L]; [exists false|exists true]; (split; [intros []; reflexivity|]); intros e I; cbn [opf] in I; apply filter_In in I; destruct I as [I _].
    + destruct (list_range k' r' low' high' e Vk' P' Sp' I) as (? & ? & ? & ?); auto.
    + destruct (list_range k r low high e Vk P Sp I) as (? & ? & ? & ?); auto.
  - exact Kf.
  - rewrite (run_clips _ collect_maybe_empty_polygons _ _ _ _ _ ps Er). apply (tight_of _ l l' (ps)); [intros g; apply collect_maybe_rings| |exact Si].
    apply (made_alone l l' V V' f f' andb ps pieces Md).
Qed.
Theorem tight_difference low high b' : spread k low high ->
  (forall q, some_inside l' q -> inside_box b' q) -> (forall x, on_segs (O l') x -> in_box b' x) -> (forall p, In p m -> do_boxes_have_no_common_area (polygon_box p) b' = true) -> tight_out l l' (clip_polygons shaped_difference (fun ps => collect_maybe_empty_polygons (ps ++ m)) fuel shape (Some high)
    (polygons_segments k) (reaching low high (polygons_segments k'))).
Proof.
  intros Sp Bd Bo X. destruct (prepare_list k Vk) as (r & P), (prepare_list k' Vk') as (r' & P'). rewrite (pl_segments _ _ P), (pl_segments _ _ P').
  change (reaching ?a ?b ?s) with (filter (reach a b) s). rewrite <- (filter_all (outlines r)) at 1.
  destruct (lists_made k k' r r' P P' (fun _ => true) (reach low high)) with (op2 := fun a b => a && negb b) (sel := sel_difference) (from_result := shaped_difference)
    (limit := Some high) (shape := shape) (fuel := fuel) as (ps & pieces & Er & Md & Si & _).
  - intros [] e g I J L1 L2; auto. cbn [keep]. apply reach_true. cbn [full negb] in I, J. destruct (list_range k r low high g Vk P Sp J) as (? & ? & ? & ?). split; qlra.
  - apply selects_difference.
  - intros []; [left; auto|right; intros []; reflexivity].
  - auto.
  - exists true. split; [auto|]. intros e I. cbn [opf] in I. rewrite filter_all in I. destruct (list_range k r low high e Vk P Sp I) as (? & ? & ? & ?); auto.
  - exact Kf.
  - rewrite (run_clips _ (fun ps => collect_maybe_empty_polygons (ps ++ m)) _ _ _ _ _ ps Er). apply (tight_of _ l l' (ps ++ m)); [intros g; apply collect_maybe_rings| |apply simple_app; [exact Si|apply simple_list, valid_filter; exact V]].
    apply (made_first l l' V V' f f' b' ps pieces Bd Bo X Md).
Qed.
Theorem tight_union : (forall e g, In e (O m) -> In g (O l') -> ~ share_continuum e g) -> (forall e g, In e (O m') -> In g (O l) -> ~ share_continuum e g) -> 
  tight_out l l' (clip_polygons shaped_union (fun ps => collect_non_empty_polygons (ps ++ m ++ m')) fuel shape None (polygons_segments k) (polygons_segments k')).
Proof.
  intros X X'. destruct (prepare_list k Vk) as (r & P), (prepare_list k' Vk') as (r' & P'). rewrite (pl_segments _ _ P), (pl_segments _ _ P').
  rewrite <- (filter_all (outlines r)) at 1. rewrite <- (filter_all (outlines r')) at 1.
  destruct (lists_made k k' r r' P P' (fun _ => true) (fun _ => true)) with (op2 := orb) (sel := sel_union) (from_result := shaped_union)
    (limit := @None Qc) (shape := shape) (fuel := fuel) as (ps & pieces & Er & Md & Si & _).
  - intros [] e g; auto.
  - apply selects_union.
  - intros []; left; auto.
  - auto.
  - auto.
  - exact Kf.
  - rewrite (run_clips _ (fun ps => collect_non_empty_polygons (ps ++ m ++ m')) _ _ _ _ _ ps Er). apply (tight_of _ l l' (ps ++ m ++ m')); [intros g; apply collect_non_empty_rings| |apply simple_app; [exact Si|apply simple_app; apply simple_list, valid_filter; [exact V|exact V']]].
    apply (made_both l l' V V' f f' orb ps pieces X X' Md).
Qed.
Theorem tight_symmetric : (forall e g, In e (O m) -> In g (O l') -> ~ share_continuum e g) -> (forall e g, In e (O m') -> In g (O l) -> ~ share_continuum e g) -> 
  tight_out l l'
    (clip_polygons shaped_symmetric_difference (fun ps => collect_maybe_empty_polygons (ps ++ m ++ m')) fuel shape None (polygons_segments k) (polygons_segments k')).
Proof.
  intros X X'. destruct (prepare_list k Vk) as (r & P), (prepare_list k' Vk') as (r' & P'). rewrite (pl_segments _ _ P), (pl_segments _ _ P').
  rewrite <- (filter_all (outlines r)) at 1. rewrite <- (filter_all (outlines r')) at 1.
  destruct (lists_made k k' r r' P P' (fun _ => true) (fun _ => true)) with (op2 := xorb) (sel := sel_symmetric) (from_result := shaped_symmetric_difference)
    (limit := @None Qc) (shape := shape) (fuel := fuel) as (ps & pieces & Er & Md & Si & _).
  - intros [] e g; auto.
  - apply selects_symmetric.
  - intros []; left; auto.
  - auto.
  - auto.
  - exact Kf.
  - rewrite (run_clips _ (fun ps => collect_maybe_empty_polygons (ps ++ m ++ m')) _ _ _ _ _ ps Er). apply (tight_of _ l l' (ps ++ m ++ m')); [intros g; apply collect_maybe_rings| |apply simple_app; [exact Si|apply simple_app; apply simple_list, valid_filter; [exact V|exact V']]].
    apply (made_both l l' V V' f f' xorb ps pieces X X' Md).
Qed.
End Kept.
