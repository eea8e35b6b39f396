(** Moments of inertia, areas and centroids (shape_factory.go:131-244) and the mass data of shapes
    (circle.go:40-47, segment.go:161-168, polyshape.go:290-298). *)
From Coq Require Import ZArith List Bool.
From Verif Require Import Num Vec BB Body.
Import ListNotations.
Local Open Scope num_scope.

Section Mass.
Context {N : Num}.

(* math.Pi as a float64 operand *)
Definition npi : num := nlit 884279719003555 281474976710656.

(* shape_factory.go:132-134 *)
Definition moment_for_box (mass width height : num) : num := mass * (width * width + height * height) / nofZ 12.
(* shape_factory.go:137-144 *)
Definition moment_for_box2 (mass : num) (box : bb) : num :=
  let width := bR box - bL box in
  let height := bT box - bB box in
  let offset := vscale (V (bL box + bR box) (bB box + bT box)) nhalf in
  moment_for_box mass width height + mass * vmagsq offset.
(* shape_factory.go:153-155 *)
Definition moment_for_circle (mass d1 d2 : num) (offset : vec) : num := mass * (nhalf * (d1 * d1 + d2 * d2) + vmagsq offset).
(* shape_factory.go:159-161; math.Pow(x, 2) is x*x *)
Definition moment_for_circle2 (mass radius : num) : num := nhalf * mass * ((radius * n2) * (radius * n2)).
(* shape_factory.go:166-170 *)
Definition moment_for_segment (mass : num) (a b : vec) (radius : num) : num :=
  let offset := vlerp a b nhalf in
  let length := vdist b a + n2 * radius in
  mass * ((length * length + nofZ 4 * radius * radius) / nofZ 12 + vmagsq offset).

(* the loops of shape_factory.go:183-192, 215-221, 231-238: v1 = verts[i], v2 = verts[(i+1)%count], i = 0 .. count-1;
   None for the index out of range *)
Definition poly_loop {A} (count : nat) (verts : list vec) (f : A -> vec -> vec -> A) (acc : A) : option A :=
  fold_left (fun acc i =>
    match acc, nth_error verts i, nth_error verts (Nat.modulo (i + 1) count) with
    | Some acc, Some v1, Some v2 => Some (f acc v1 v2)
    | _, _, _ => None
    end) (seq 0 count) (Some acc).

(* shape_factory.go:176-195 *)
Definition moment_for_poly (mass : num) (count : nat) (verts : list vec) (offset : vec) (r : num) : option num :=
  if Nat.eqb count 2 then
    match verts with a :: b :: _ => Some (moment_for_segment mass a b n0) | _ => None end
  else
    match poly_loop count verts (fun s w1 w2 =>
      let v1 := vadd w1 offset in
      let v2 := vadd w2 offset in
      let a := vcross v2 v1 in
      let b := vdot v1 v1 + vdot v1 v2 + vdot v2 v2 in
      (fst s + a * b, snd s + a)) (n0, n0) with
    | Some (sum1, sum2) => Some ((mass * sum1) / (nofZ 6 * sum2))
    | None => None
    end.
(* shape_factory.go:200-202 *)
Definition area_for_circle (r1 r2 : num) : num := npi * nabs (r1 * r1 - r2 * r2).
(* shape_factory.go:205-207 *)
Definition area_for_segment (a b : vec) (r : num) : num := r * (npi * r + n2 * vdist a b).
(* shape_factory.go:212-224 *)
Definition area_for_poly (count : nat) (verts : list vec) (r : num) : option num :=
  match poly_loop count verts (fun s v1 v2 => (fst s + vcross v1 v2, snd s + vdist v1 v2)) (n0, n0) with
  | Some (area, perimeter) => Some (r * (npi * nabs r + perimeter) + area / n2)
  | None => None
  end.
(* shape_factory.go:227-241 *)
Definition centroid_for_poly (count : nat) (verts : list vec) : option vec :=
  match poly_loop count verts (fun s v1 v2 =>
      let cross := vcross v1 v2 in
      (fst s + cross, vadd (snd s) (vscale (vadd v1 v2) cross))) (n0, vzero) with
  | Some (sum, vsum) => Some (vscale vsum (n1 / (nofZ 3 * sum)))
  | None => None
  end.

(* ShapeMassInfo without the mass (everything.go:137-141): moment per unit of mass, centre of gravity, area *)
Record shapemass := SM { sm_i : num; sm_cog : vec; sm_area : num }.
(* circle.go:40-47 *)
Definition circle_mass_info (radius : num) (center : vec) : shapemass :=
  SM (moment_for_circle n1 n0 radius vzero) center (area_for_circle n0 radius).
(* segment.go:161-168 *)
Definition segment_mass_info (a b : vec) (r : num) : shapemass :=
  SM (moment_for_box n1 (vdist a b + n2 * r) (n2 * r)) (vlerp a b nhalf) (area_for_segment a b r).
(* polyshape.go:290-298 *)
Definition poly_mass_info (count : nat) (verts : list vec) (r : num) : option shapemass :=
  match centroid_for_poly count verts with
  | None => None
  | Some c =>
    match moment_for_poly n1 count verts (vneg c) r, area_for_poly count verts r with
    | Some i, Some a => Some (SM i c a)
    | _, _ => None
    end
  end.
(* the vertices of NewBoxShape2 (shape_factory.go:64-69) *)
Definition box_verts (b : bb) : list vec := [V (bR b) (bB b); V (bR b) (bT b); V (bL b) (bT b); V (bL b) (bB b)].
(* the box of NewBoxShape (shape_factory.go:41-43) *)
Definition centred_box (w h : num) : bb := let hw := w / n2 in let hh := h / n2 in mkBB (- hw) (- hh) hw hh.
End Mass.
