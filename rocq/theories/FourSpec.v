(** What patches with four sides are compared with: tensor product Bezier
    surfaces and Coons patches. *)
From Verif Require Import Base MeshModel DomainModel UtilModel UtilSpec RibbonModel GBModel GBSpec SurfaceModel.
Open Scope R_scope.

(** The domain for four sides. *)
Definition unit4 : list V2 := [mkV2 1 1; mkV2 (-1) 1; mkV2 (-1) (-1); mkV2 1 (-1)].
(** The point of the domain with coordinates [u], [v] in the unit square: [u]
    runs along side 0, [v] away from it. *)
Definition at4 (u v : R) : V2 := mkV2 (1 - 2 * v) (2 * u - 1).
(** Coordinates of the four sides at this point. *)
Definition sides4 (u v : R) : list V2 := [mkV2 u v; mkV2 v (1 - u); mkV2 (1 - u) (1 - v); mkV2 (1 - v) u].

(** Tensor product Bezier surface of degree [d] in both directions. *)
Definition tensor (d : nat) (P : nat -> nat -> V3) (u v : R) : V3 :=
  bezier d (fun b => bezier d (fun a => P a b) u) v.

(** The control points of a four sided net as a grid: [a] along side 0, [b]
    away from it. *)
Definition gpoint (g : gbsurf) (i j k : nat) : V3 := match controlPoint g i j k with Some p => p | None => vzero end.
Definition grid (d : nat) (g : gbsurf) (a b : nat) : V3 :=
  if (2 * b <? d)%nat then gpoint g 0 a b
  else if (d <? 2 * b)%nat then gpoint g 2 (d - a) (d - b)
  else if (2 * a <? d)%nat then gpoint g 3 (d - b) a
  else if (d <? 2 * a)%nat then gpoint g 1 b (d - a)
  else gb_cen g.

(** ** Coons patches *)
Definition hpoly (t : R) : R := 1 - 3 * t ^ 2 + 2 * t ^ 3.
(** Distances are corrected or not. *)
Definition corrected (g : bool) (x : R) : R := if g then x / (2 * x + 1) else x.
(** Ribbon [i] at parameter [s] and distance [h]. *)
Definition ribbonAt (sf : surf) (i : nat) (s h : R) : V3 :=
  match nth_error (sf_ribbons sf) i with
  | Some r => cpt (sr_curve r) s +v (match sr_cross r s with Some x => x | None => vzero end) *v corrected (sf_gamma sf) h
  | None => vzero
  end.
(** The part that the ribbons [i] and [i+1] have in common, at distance [h] of
    the first and [k] of the second one: a plane and a rational twist term. *)
Definition cornerAt (eps : R) (sf : surf) (i : nat) (h k : R) : V3 :=
  match nth_error (sf_corners sf) i with
  | Some c =>
      let b := corrected (sf_gamma sf) h in let a := corrected (sf_gamma sf) k in
      cn_point c +v cn_tan1 c *v a +v cn_tan2 c *v b
        +v (cn_twist2 c *v (if Rlt_dec (a + b) eps then 0 else a * a * b / (a + b))
            +v cn_twist1 c *v (if Rlt_dec (a + b) eps then 0 else a * b * b / (a + b)))
  | None => vzero
  end.
(** Coons patch of four ribbons with cubic blending functions: ribbons of
    opposite sides blended, both directions added, the corners subtracted. *)
Definition coonsPatch (eps : R) (sf : surf) (u v : R) : V3 :=
  let f0 := hpoly in let f1 := fun t => hpoly (1 - t) in
  (ribbonAt sf 0 u v *v f0 v +v ribbonAt sf 2 (1 - u) (1 - v) *v f1 v)
  +v (ribbonAt sf 3 (1 - v) u *v f0 u +v ribbonAt sf 1 v (1 - u) *v f1 u)
  -v (cornerAt eps sf 3 u v *v f0 u *v f0 v +v cornerAt eps sf 0 v (1 - u) *v f1 u *v f0 v
      +v cornerAt eps sf 2 (1 - v) u *v f0 u *v f1 v +v cornerAt eps sf 1 (1 - u) (1 - v) *v f1 u *v f1 v).

(** Bilinearly blended Coons patch of four curves in a loop. *)
Definition coonsCurves (c : nat -> R -> V3) (u v : R) : V3 :=
  (c 0%nat u *v (1 - v) +v c 2%nat (1 - u) *v v) +v (c 3%nat (1 - v) *v (1 - u) +v c 1%nat v *v u)
  -v (c 0%nat 0 *v ((1 - u) * (1 - v)) +v c 1%nat 0 *v (u * (1 - v)) +v c 2%nat 0 *v (u * v) +v c 3%nat 0 *v ((1 - u) * v)).
(** The cubic with the ends and the end derivatives of a curve. *)
Definition cubicOf (c : curve) (s : R) : V3 :=
  cpt c 0 *v hpoly s +v cder c 0 *v (s * (1 - s) ^ 2) -v cder c 1 *v (s ^ 2 * (1 - s)) +v cpt c 1 *v hpoly (1 - s).
