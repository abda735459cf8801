(** Model of python/triqs/lattice/bz_patch.py, class BZPatch (lines 26-46).  Coordinates are exact real numbers.
    Not modelled: dos (lines 48-50), which passes the triangles to dos_patch. *)
From Coq Require Import Reals List Bool Arith.
Import ListNotations.
Open Scope R_scope.

(** a corner: its first two coordinates *)
Definition pt : Type := R * R.

(** the attributes weight, _triangles and _weights, lines 31-33 *)
Record patch := mkPatch { p_weight : R; p_triangles : list pt; p_weights : list R }.

(** the expression of lines 40-41 and 42-43 *)
Definition tri_weight (a b c : pt) : R :=
  / 2 * Rabs ((fst b - fst a) * (snd c - snd a) - (snd b - snd a) * (fst c - fst a)).

(** pnt[np%3] = point for np = 0, 1, line 46; larger np do not get here *)
Definition set_pnt (t : pt * pt * pt) (np : nat) (q : pt) : pt * pt * pt :=
  match t with (a, b, c) => match (np mod 3)%nat with O => (q, b, c) | 1%nat => (a, q, c) | _ => (a, b, q) end end.

(** the body of the loop over the corners of a polygon, lines 36-46 *)
Definition corner_step (st : patch * (pt * pt * pt)) (e : nat * pt) : patch * (pt * pt * pt) :=
  let (P, t) := st in let (np, q) := e in
  if (1 <? np)%nat then match t with (a, b, _) =>
      (mkPatch (p_weight P + tri_weight a b q) (p_triangles P ++ [a; b; q]) (p_weights P ++ [tri_weight a b q]), (a, q, q)) end
  else (P, set_pnt t np q).

(** one polygon, lines 34-46.  pnt starts as [0, 0, 0]; the zeros are never read and stand for corners here *)
Definition add_polygon (P : patch) (polygon : list pt) : patch :=
  fst (fold_left corner_step (combine (seq 0 (length polygon)) polygon) (P, ((0, 0), (0, 0), (0, 0)))).

(** __init__, lines 28-46 *)
Definition make_patch (polygons : list (list pt)) : patch := fold_left add_polygon polygons (mkPatch 0 [] []).
