(** Model of /repo/src/utils/polygon.rs. *)
From Verif Require Import Prelude Num M_vec M_utils.

(** slice::sort / sort_by (stable): insertion sort with the same "less" comparison.  For a
    strict weak order every stable sort returns this list. *)
Fixpoint isort_insert {A} (less : A -> A -> bool) (x : A) (l : list A) : list A :=
  match l with
  | [] => [x]
  | y :: t => if less y x then y :: isort_insert less x t else x :: y :: t
  end.
Fixpoint isort {A} (less : A -> A -> bool) (l : list A) : list A :=
  match l with
  | [] => []
  | x :: t => isort_insert less x (isort less t)
  end.
Definition sort_nat : list nat -> list nat := isort Nat.ltb.

(** VecDeque::remove at each of the given positions, in order. *)
Definition remove_all {A} (l : list A) (positions : list nat) : list A :=
  fold_left delete_nth positions l.

(** slice::binary_search on a sorted slice: position of the element if it occurs.  (With
    repeated equal elements Rust may return any of their positions; the code only uses the
    position to remove one of the equal elements, with the same resulting list.) *)
Definition binary_search (l : list nat) (x : nat) : option nat := position (Nat.eqb x) l.

Section Polygon.
Context {F : Type} {NF : Num F}.
Local Open Scope num_scope.
Notation pt := (vec2 F).

(** polygon.rs:6-13 *)
Definition is_polygon_counter_clockwise (points : list pt) : outcome bool :=
  n1 <- usub (length points) 1 ;;
  sum <- foldM (fun sum i =>
           p1 <- idx points (i + 1) ;;
           p <- idx points i ;;
           Ok (sum + (x2 p1 - x2 p) * (y2 p + y2 p1)))
         f0 (Prelude.range 0 n1) ;;
  first <- idx points 0 ;;
  last <- idx points n1 ;;
  Ok (sum + (x2 first - x2 last) * (y2 last + y2 first) <? f0).

(** polygon.rs:144-149 *)
Inductive Convexity := Convex | Colinear | Concave.

(** polygon.rs:152-161 *)
Definition compute_convexity (a b c : pt) : Convexity :=
  let product := perp_dot (vsub b a) (vsub c b) in
  if near product f0 then Colinear
  else if product >? f0 then Convex
  else Concave.

(** polygon.rs:15-35; returns (vertices, concave_points). *)
Definition compute_vertex_convexity (points : list pt) : outcome (list nat * list nat) :=
  let n := length points in
  foldM (fun '(vertices, concave_points) i =>
    pp <- usub (n + i) 1 ;;
    prev <- idx points (pp mod n) ;;
    curr <- idx points i ;;
    next <- idx points ((i + 1) mod n) ;;
    Ok (match compute_convexity prev curr next with
        | Convex => (vertices ++ [i], concave_points)
        | Concave => (vertices ++ [i], concave_points ++ [i])
        | Colinear => (vertices, concave_points)
        end))
  ([], []) (Prelude.range 0 n).

(** polygon.rs:37-63; returns (updated vertices, sorted concave points). *)
Definition find_concave_vertices (points : list pt) (vertices : list nat)
    : outcome (list nat * list nat) :=
  let n := length vertices in
  r <- foldM (fun '(to_delete, concave_points) i =>
         pp <- usub (n + i) 1 ;;
         vp <- idx vertices (pp mod n) ;;
         vc <- idx vertices i ;;
         vn <- idx vertices ((i + 1) mod n) ;;
         prev <- idx points vp ;;
         curr <- idx points vc ;;
         next <- idx points vn ;;
         Ok (match compute_convexity prev curr next with
             | Convex => (to_delete, concave_points)
             | Concave => (to_delete, concave_points ++ [vc])
             | Colinear => (to_delete ++ [i], concave_points)
             end))
       ([], []) (Prelude.range 0 n) ;;
  let '(to_delete, concave_points) := r in
  Ok (remove_all vertices (rev to_delete), sort_nat concave_points).

(** polygon.rs:163-167 *)
Definition is_inside_triangle (a b c p : pt) : bool :=
  (perp_dot (vsub a p) (vsub b p) >=? f0) && (perp_dot (vsub b p) (vsub c p) >=? f0)
  && (perp_dot (vsub c p) (vsub a p) >=? f0).

(** polygon.rs:169-184 *)
Fixpoint is_ear (points : list pt) (concave_points : list nat) (prev curr next : nat) : outcome bool :=
  match concave_points with
  | [] => Ok true
  | other :: rest =>
      if (negb (other =? prev) && negb (other =? next))%nat then
        a <- idx points prev ;;
        b <- idx points curr ;;
        c <- idx points next ;;
        o <- idx points other ;;
        if is_inside_triangle a b c o then Ok false
        else is_ear points rest prev curr next
      else is_ear points rest prev curr next
  end.

(** Loop state of ear clipping: emitted indices (u32), remaining vertices, concave points. *)
Record ear_state := mkEar { e_tris : list N; e_verts : list nat; e_conc : list nat }.

(** polygon.rs:104-115: what happens to the previous vertex when [curr] (position i) is clipped;
    returns the new concave list and the extra position to delete. *)
Definition ear_update_prev (points : list pt) (verts conc : list nat) (m i prev next : nat)
    : outcome (list nat * list nat) :=
  match binary_search conc prev with
  | Some j =>
      k <- usub (m + i) 2 ;;
      prev_prev <- idx verts (k mod m) ;;
      a <- idx points prev_prev ;;
      b <- idx points prev ;;
      c <- idx points next ;;
      match compute_convexity a b c with
      | Convex => conc <- remove_at conc j ;; Ok (conc, [])
      | Colinear => k1 <- usub (m + i) 1 ;; Ok (conc, [(k1 mod m)%nat])
      | Concave => Ok (conc, [])
      end
  | None => Ok (conc, [])
  end.

(** polygon.rs:116-127: the same for the next vertex. *)
Definition ear_update_next (points : list pt) (verts conc : list nat) (m i prev next : nat)
    : outcome (list nat * list nat) :=
  match binary_search conc next with
  | Some j =>
      next_next <- idx verts ((i + 2) mod m) ;;
      a <- idx points prev ;;
      b <- idx points next ;;
      c <- idx points next_next ;;
      match compute_convexity a b c with
      | Convex => conc <- remove_at conc j ;; Ok (conc, [])
      | Colinear => Ok (conc, [((i + 1) mod m)%nat])
      | Concave => Ok (conc, [])
      end
  | None => Ok (conc, [])
  end.

(** polygon.rs:92-137, one iteration of the inner loop at position i; returns (state, m). *)
Definition ear_step (points : list pt) (st : ear_state) (m i : nat) : outcome (ear_state * nat) :=
  curr <- idx (e_verts st) i ;;
  match binary_search (e_conc st) curr with
  | Some _ => Ok (st, m)
  | None =>
      pp <- usub (m + i) 1 ;;
      prev <- idx (e_verts st) (pp mod m) ;;
      next <- idx (e_verts st) ((i + 1) mod m) ;;
      ear <- is_ear points (e_conc st) prev curr next ;;
      if ear : bool then
        let tris := e_tris st ++ [as_u32 prev; as_u32 curr; as_u32 next] in
        ' (conc, del1) <- ear_update_prev points (e_verts st) (e_conc st) m i prev next ;;
        ' (conc, del2) <- ear_update_next points (e_verts st) conc m i prev next ;;
        let to_delete := rev (sort_nat (i :: del1 ++ del2)) in
        m <- usub m (length to_delete) ;;
        Ok (mkEar tris (remove_all (e_verts st) to_delete) conc, m)
      else Ok (st, m)
  end.

(** polygon.rs:90-139, the inner loop [while i < m]. *)
Fixpoint ear_pass (fuel : nat) (points : list pt) (st : ear_state) (m i : nat) : outcome ear_state :=
  if (i <? m)%nat then
    match fuel with
    | O => OutOfFuel
    | S fuel' => ' (st', m') <- ear_step points st m i ;; ear_pass fuel' points st' m' (S i)
    end
  else Ok st.

(** polygon.rs:75-140, the outer loop; [prev_m = None] stands for usize::MAX. *)
Fixpoint ear_loop (fuel : nat) (points : list pt) (st : ear_state) (prev_m : option nat) : outcome ear_state :=
  match fuel with
  | O => OutOfFuel
  | S fuel' =>
      let m := length (e_verts st) in
      if match prev_m with None => false | Some pm => (pm <=? m)%nat end then Ok st
      else if (m <? 3)%nat then Ok st
      else if (m =? 3)%nat then
        a <- idx (e_verts st) 0 ;;
        b <- idx (e_verts st) 1 ;;
        c <- idx (e_verts st) 2 ;;
        Ok (mkEar (e_tris st ++ [as_u32 a; as_u32 b; as_u32 c]) (e_verts st) (e_conc st))
      else
        st' <- ear_pass m points st m 0 ;;
        ear_loop fuel' points st' (Some m)
  end.

(** polygon.rs:66-142.  [(n - 2) * 3] in the capacity computation panics for n < 2.
    The fuel [n + 2] is proved sufficient (no input runs out of it). *)
Definition trianglate_polygon (points : list pt) (vertices concave_points : list nat) : outcome (list N) :=
  let n := length vertices in
  _ <- usub n 2 ;;
  st <- ear_loop (n + 2) points (mkEar [] vertices concave_points) None ;;
  Ok (e_tris st).

(** polygon.rs:223-234 *)
Definition nearest_edge (points : list pt) (outer : list nat) (p : pt) : outcome nat :=
  r <- foldM (fun '(min, min_index) i =>
         va <- idx outer i ;;
         a <- idx points va ;;
         vb <- idx outer ((i + 1) mod length outer) ;;
         b <- idx points vb ;;
         let distance := distance_to_line_segment2 p a b in
         Ok (if distance <? min then (distance, i) else (min, min_index)))
       (fmaxval, 0%nat) (Prelude.range 0 (length outer)) ;;
  Ok (snd r).

(** polygon.rs:215-244 *)
Definition merge_two_polygons (points : list pt) (outer : list nat) (start en max_x_index : nat)
    : outcome (list nat) :=
  inner_point <- idx points max_x_index ;;
  min_index <- nearest_edge points outer inner_point ;;
  let insert_pos := (min_index + 1)%nat in
  o <- idx outer min_index ;;
  outer <- insert_at outer insert_pos o ;;
  outer <- foldM (fun outer index => insert_at outer insert_pos index)
                 outer (rev (range_incl start max_x_index)) ;;
  foldM (fun outer index => insert_at outer insert_pos index)
        outer (rev (Prelude.range max_x_index en)).

(** polygon.rs:191-199 *)
Definition max_x (points : list pt) (start en : nat) : outcome (F * nat) :=
  foldM (fun '(x_max, i_max) index =>
           p <- idx points index ;;
           Ok (if x2 p >? x_max then (x2 p, index) else (x_max, i_max)))
        (fminval, 0%nat) (Prelude.range start en).

(** polygon.rs:186-213.  x_max is never NaN, so partial_cmp(..).unwrap() does not panic. *)
Definition merge_polygons (points : list pt) (polygons : list nat) : outcome (list nat) :=
  loops <- mapM (fun '(start, en) =>
             ' (x_max, i_max) <- max_x points start en ;; Ok (start, en, i_max, x_max))
           (pairs polygons) ;;
  let sorted := isort (fun a b : nat * nat * nat * F => snd a <? snd b) loops in
  match rev sorted with
  | [] => Panic
  | (outer_start, outer_end, _, _) :: rest =>
      foldM (fun vertices '(start, en, i_max, _) => merge_two_polygons points vertices start en i_max)
            (Prelude.range outer_start outer_end) rest
  end.

End Polygon.
