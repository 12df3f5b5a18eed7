(** Model of /repo/src/utils/meshgen.rs. *)
From Verif Require Import Prelude Num M_vec M_utils M_polygon M_curve.

(** VecDeque::pop_back *)
Definition pop_back {A} (l : list A) : option (A * list A) :=
  match rev l with [] => None | x :: t => Some (x, rev t) end.

(** VecDeque::swap_remove_front(i): the element at i is removed and replaced by the first one. *)
Definition swap_remove_front {A} (l : list A) (i : nat) : list A :=
  match l with
  | [] => []
  | h :: t => match i with O => t | S j => set_nth t j h end
  end.

Section Meshgen.
Context {F : Type} {NF : Num F}.
Local Open Scope num_scope.
Notation pt := (vec2 F).

(** lib.rs:31 HALF_SQRT_3 = 1.7320508075689 / 2.0 *)
Definition half_sqrt_3 : F := flit 17320508075689 10000000000000 / f2.
(** meshgen.rs:123 *)
Definition min_grid_size : F := flit 1 1000.

(** meshgen.rs:124-131 *)
Definition point_on_normal_bisector (a b : pt) (ratio : F) : pt :=
  let center := divs2 (vadd a b) f2 in
  let displace := perp (vsub b a) in
  let displace := if length2 displace <? min_grid_size
                  then vmulr (normalize2 displace) (flit 1 100) else displace in
  vadd center (vmulr displace ratio).

(** meshgen.rs:133-152 *)
Definition is_segments_intersect (a b c d : pt) : bool :=
  if (fmin (x2 a) (x2 b) >? fmax (x2 c) (x2 d)) || (fmin (x2 c) (x2 d) >? fmax (x2 a) (x2 b))
     || (fmin (y2 a) (y2 b) >? fmax (y2 c) (y2 d)) || (fmin (y2 c) (y2 d) >? fmax (y2 a) (y2 b))
  then false
  else
    let ac := vsub c a in
    let bc := vsub c b in
    let ad := vsub d a in
    let bd := vsub d b in
    if perp_dot ac ad * perp_dot bd bc <? f0 then false
    else if perp_dot ac bc * perp_dot bd ad <? f0 then false
    else true.

(** meshgen.rs:154-159 *)
Definition shape_factor (a b c : pt) : F :=
  let ab := vsub b a in
  let ac := vsub c a in
  let bc := vsub c b in
  perp_dot ab ac / (length_squared2 ab + length_squared2 ac + length_squared2 bc).

(** meshgen.rs:76-109, the filter_map closure for one front edge. *)
Definition nearby_node (start en : nat) (selected : option nat) (vertices : list pt)
    (a b new_point : pt) (e : nat * nat) : outcome (option (nat * F)) :=
  let sel x := match selected with Some s => (s =? x)%nat | None => false end in
  if sel (fst e) then Ok None
  else
    c <- idx vertices (fst e) ;;
    if (negb (fst e =? start) && negb (fst e =? en))%nat && point_is_inside_triangle c a b new_point
    then Ok (Some (fst e, f1 + shape_factor a b c))
    else if sel (snd e) then Ok None
    else
      d <- idx vertices (snd e) ;;
      let fc := shape_factor a b c in
      let fd := shape_factor a b d in
      if (negb (fst e =? start) && negb (snd e =? start))%nat && is_segments_intersect a new_point c d
      then Ok (Some (if (fst e =? en)%nat then (snd e, fd)
                     else if fc >? fd then (fst e, fc) else (snd e, fd)))
      else if (negb (fst e =? en) && negb (snd e =? en))%nat && is_segments_intersect b new_point c d
      then Ok (Some (if (snd e =? start)%nat then (fst e, fc)
                     else if fc >? fd then (fst e, fc) else (snd e, fd)))
      else Ok None.

Definition keep_some {A} (l : list (option A)) : list A :=
  flat_map (fun o => match o with Some x => [x] | None => [] end) l.

(** partial_cmp(..).unwrap_or(Less) == Less *)
Definition plt_or_unordered (x y : F) : bool :=
  if x <? y then true else if x <=? y then false else if y <? x then false else true.

(** meshgen.rs:61-121.  vertices[e.0] is only read by the code after the first test of the
    edge; the model reads it before the tests on e.0 (all front nodes are valid indices). *)
Definition find_intersection_with_front (start en : nat) (selected : option nat)
    (front : list (nat * nat)) (vertices : list pt) : outcome (option nat) :=
  a <- idx vertices start ;;
  b <- idx vertices en ;;
  new_point <- match selected with
               | Some node => idx vertices node
               | None => Ok (point_on_normal_bisector a b f1)
               end ;;
  found <- mapM (nearby_node start en selected vertices a b new_point) front ;;
  let nearby := keep_some found in
  let nearby := isort (fun x y : nat * F =>
      if (fst x <? fst y)%nat then true
      else if (fst x =? fst y)%nat then plt_or_unordered (snd y) (snd x) else false) nearby in
  let nearby := dedup_by (fun x y : nat * F => (fst x =? fst y)%nat) nearby in
  let nearby := if (1 <? length nearby)%nat
                then isort (fun x y : nat * F => plt_or_unordered (snd x) (snd y)) nearby else nearby in
  Ok (match rev nearby with [] => None | (node, _) :: _ => Some node end).

(** meshgen.rs:27-35: repeat until no intersection is found; not bounded in the code. *)
Fixpoint select_node (fuel : nat) (edge : nat * nat) (selected : option nat)
    (front : list (nat * nat)) (vertices : list pt) : outcome (option nat) :=
  match fuel with
  | O => OutOfFuel
  | S fuel' =>
      r <- find_intersection_with_front (fst edge) (snd edge) selected front vertices ;;
      match r with
      | Some node => select_node fuel' edge (Some node) front vertices
      | None => Ok selected
      end
  end.

Record mesh_state := mkMesh { ms_verts : list pt; ms_tris : list N; ms_front : list (nat * nat) }.

(** meshgen.rs:38-47: close the edge x -> y of a new triangle against the front. *)
Definition close_edge (front : list (nat * nat)) (x y : nat) : list (nat * nat) :=
  match position (fun e => (fst e =? y) && (snd e =? x))%nat front with
  | Some index => swap_remove_front front index
  | None => (x, y) :: front
  end.

(** meshgen.rs:23-57, the body of the loop after popping [edge]. *)
Definition advance (fuel : nat) (st : mesh_state) (edge : nat * nat) (front : list (nat * nat))
    : outcome mesh_state :=
  a <- idx (ms_verts st) (fst edge) ;;
  b <- idx (ms_verts st) (snd edge) ;;
  selected <- select_node fuel edge None front (ms_verts st) ;;
  match selected with
  | Some node =>
      let front := close_edge front (fst edge) node in
      let front := close_edge front node (snd edge) in
      Ok (mkMesh (ms_verts st)
                 (ms_tris st ++ [as_u32 (fst edge); as_u32 (snd edge); as_u32 node]) front)
  | None =>
      let index := length (ms_verts st) in
      let new_point := point_on_normal_bisector a b half_sqrt_3 in
      Ok (mkMesh (ms_verts st ++ [new_point])
                 (ms_tris st ++ [as_u32 (fst edge); as_u32 (snd edge); as_u32 index])
                 ((index, snd edge) :: (fst edge, index) :: front))
  end.

(** meshgen.rs:23, while let Some(edge) = front.pop_back(). *)
Fixpoint advance_loop (fuel : nat) (st : mesh_state) : outcome mesh_state :=
  match fuel with
  | O => OutOfFuel
  | S fuel' =>
      match pop_back (ms_front st) with
      | None => Ok st
      | Some (edge, front) => st' <- advance fuel st edge front ;; advance_loop fuel' st'
      end
  end.

(** meshgen.rs:12-20 *)
Definition initial_front (polygons : list nat) : outcome (list (nat * nat)) :=
  foldM (fun front '(start, en) =>
           e1 <- usub en 1 ;;
           Ok (front ++ map (fun i => (i, (i + 1)%nat)) (Prelude.range start e1) ++ [(e1, start)]))
        [] (pairs polygons).

(** meshgen.rs:6-59 *)
Definition generate_triangular_mesh (fuel : nat) (points : list pt) (polygons : list nat)
    : outcome (list pt * list N) :=
  front <- initial_front polygons ;;
  st <- advance_loop fuel (mkMesh points [] front) ;;
  Ok (ms_verts st, ms_tris st).

End Meshgen.
