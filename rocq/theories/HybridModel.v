(** Model of surface-hybrid.cc: a generalized Bezier patch whose two outer rows
    are replaced by the ribbons. *)
From Verif Require Import Base UtilModel DomainModel ParamModel RibbonModel SurfaceModel GBModel.
From Coq Require Import Reals List.
Import ListNotations.
Open Scope R_scope.

(** The body of the loops surface-hybrid.cc:31-41 for side [i]; the state is
    (surface_point, weight_sum, blends[i]). *)
Definition hybridSide (eps : R) (g : gbsurf) (sds : list V2) (i : nat) (st : V3 * R * R) : option (V3 * R * R) :=
  foldM (fun st k => foldM (fun (st : V3 * R * R) j =>
      let '(p, w, b) := st in
      blend <- gbWeight eps g sds i j k ;;
      if (2 <=? k)%nat then q <- controlPoint g i j k ;; Some (p +v q *v blend, w + blend, b)
      else Some (p, w + blend, b + blend))
    st (seq 0 (gb_deg g + 1))) st (seq 0 (gb_lay g)).

(** surface-hybrid.cc:24-47, on the ribbon coordinates [sds]; [sf] holds the members
    inherited from Surface, [g] those of SurfaceGeneralizedBezier.  blends[i] is
    appended when side [i] is done. *)
Definition hybridEval (eps : R) (g : gbsurf) (sf : surf) (sds : list V2) : option V3 :=
  ' (p, w, blends) <- foldM (fun (st : V3 * R * list R) i =>
      let '(p, w, bs) := st in
      ' (p', w', b) <- hybridSide eps g sds i (p, w, 0) ;; Some (p', w', bs ++ [b]))
    (vzero, 0, []) (seq 0 (gb_n g)) ;;
  r <- osum (gb_n g) (fun i =>
    sd <- nth_error sds i ;; q <- sideInterpolant sf i (px sd) (py sd) ;; b <- nth_error blends i ;; Some (q *v b)) ;;
  Some (p +v gb_cen g *v (1 - w) +v r).

(** surface-hybrid.cc:14-19: squared weights, the regular domain with barycentric coordinates *)
Definition hybridSurfaceEval (eps : R) (d : dom) (g : gbsurf) (sf : surf) (uv : V2) : option V3 :=
  sds <- mapToRibbons (KBary Wachspress) eps d uv ;; hybridEval eps g sf sds.
