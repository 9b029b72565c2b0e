(** HDBSCAN with stabilities of any type, and on [float] and [double] with their rounding. *)
From Coq Require Import List Arith ZArith Bool.
From Flocq Require Import Core BinarySingleNaN.
From Verif Require Import Base BufferModel KDTreeModel BoruvkaModel SlinkModel CondensedModel HdbscanModel FloatModel FloatCondensedModel.
Import ListNotations.

(** [predict]; the arguments are those of [hdbscan_predict] and [fmake].
    /repo/include/ffcl/hdbscan/HDBSCAN.hpp:90-116. *)
Definition hdbscan_any (m : metric) {V : Type} (zero : V) (inverse : m_dist m -> V) (excess : V -> nat -> V -> V -> V)
  (plus : V -> V -> V) (greater : V -> V -> bool) (samples : list Z) (n_features : nat) (tree : kdtree)
  oc oe (fuel : nat) sort order (o : hdbscan_options) : res (list nat) :=
  minimum_spanning_tree <- make_tree m samples n_features tree oc oe fuel (h_k_nearest_neighbors o) ;;
  single_linkage_cluster_tree_root <- make_slink sort order minimum_spanning_tree ;;
  fextract (fmake zero inverse excess plus greater
    {| min_cluster_size := h_min_cluster_size o; return_leaf_nodes := h_return_leaf_nodes o;
       allow_single_cluster := h_allow_single_cluster o |} single_linkage_cluster_tree_root).

(** [predict] on [float] or [double]. HDBSCAN.hpp:90-116. *)
Definition float_hdbscan (prec emax : Z) (Hp : Prec_gt_0 prec) (Hm : Prec_lt_emax prec emax) (fused : bool)
  (add : nat -> grouping) (samples : list (binary_float prec emax)) (n_features : nat) (tree : kdtree)
  oc oe (fuel : nat) sort order (o : hdbscan_options) : res (list nat) :=
  hdbscan_any (binary_metric prec emax Hp Hm add) (B754_zero false) (fun d => float_inverse prec emax Hp Hm (proj1_sig d))
    (float_excess prec emax Hp Hm fused) (Bplus mode_NE) (fun a b => Bltb b a)
    (map (encode prec emax) samples) n_features tree oc oe fuel sort order o.
