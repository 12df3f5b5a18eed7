(** Model of /repo/examples/bezier.rs and /repo/examples/bspline.rs: a file of Bezier patches (BPT) is
    read, and the patches are written as OBJ and STL.  The model starts from the text of the file and
    returns the texts instead of writing files; file names and I/O errors are not modelled. *)
From Verif Require Import Prelude Num M_vec M_utils M_curve M_surface M_files.
From Coq Require Import NArith.

(** char::is_whitespace: the characters with the Unicode property White_Space *)
Definition is_white (c : N) : bool :=
  ((9 <=? c) && (c <=? 13) || (c =? 32) || (c =? 133) || (c =? 160) || (c =? 5760) || (8192 <=? c) && (c <=? 8202)
   || (c =? 8232) || (c =? 8233) || (c =? 8239) || (c =? 8287) || (c =? 12288))%N%bool.
(** str::split_whitespace *)
Definition split_whitespace (s : list N) : list (list N) :=
  filter (fun w => negb (match w with [] => true | _ => false end)) (split_on is_white s).
(** usize::from_str: an optional '+', then at least one digit, at most 2^64-1 *)
Definition usize_digit (acc : option N) (c : N) : option N :=
  match acc with
  | Some v => if ((48 <=? c) && (c <=? 57))%N%bool
              then let v := (v * 10 + (c - 48))%N in if (v <? 2 ^ 64)%N then Some v else None
              else None
  | None => None
  end.
Definition parse_usize (w : list N) : option N :=
  let ds := match w with c :: t => if (c =? 43)%N then t else w | [] => w end in
  match ds with [] => None | _ => fold_left usize_digit ds (Some 0%N) end.
(** usize addition and multiplication, with overflow checks *)
Definition usize_ck (n : N) : outcome N := if (n <? 2 ^ 64)%N then Ok n else Panic.

(** Grid::transpose (dependency grid 0.4) *)
Definition grid_transpose {A} (g : Grid A) : outcome (Grid A) :=
  data <- mapM (fun '(c, r) => idx (g_data g) (r * g_cols g + c)%nat)
               (flat_map (fun c => map (fun r => (c, r)) (seq 0 (g_rows g))) (seq 0 (g_cols g))) ;;
  Ok (mkGrid (g_rows g) data).

Section Teapot.
Context {F : Type} {NF : Num F}.
(** f64::from_str *)
Variable parse : list N -> option F.
(** the surface made of a grid: BezierSurface::new (bezier.rs:32), or BSplineSurface::uniform_clamped
    (bspline.rs:33-36) *)
Variable surface : Grid (vec3 F) -> outcome (Surface F).
(** bezier.rs:31-36, 52-57; bspline.rs:32-40, 57-65 *)
Definition teapot_face (division : nat * nat) (points : list (vec3 F)) (cols : nat) : outcome (SurfacePatch F) :=
  g <- grid_from_vec points cols ;;
  g <- grid_transpose g ;;
  s <- surface g ;;
  Ok {| sp_surface := s; sp_range := ((f0, f1), (f0, f1)); sp_division := division |}.

(** bezier.rs:23-50, bspline.rs:24-55: one line; the state is model.faces, points, current_cols.
    The reservations of memory (reserve_exact, with_capacity) have no effect but on the heap; that they can
    fail for huge numbers is left out, but the overflow of the product at bezier.rs:41 is not. *)
Definition teapot_line (division : nat * nat) (st : list (SurfacePatch F) * list (vec3 F) * nat) (line : list N)
  : outcome (list (SurfacePatch F) * list (vec3 F) * nat) :=
  let '(faces, points, cols) := st in
  match split_whitespace line with
  | [n] => _ <- unwrap (parse_usize n) ;; Ok st
  | [m; n] =>
      faces <- (if (0 <? length points)%nat then f <- teapot_face division points cols ;; Ok (faces ++ [f]) else Ok faces) ;;
      m <- unwrap (parse_usize m) ;;
      n <- unwrap (parse_usize n) ;;
      m1 <- usize_ck (m + 1) ;;
      n1 <- usize_ck (n + 1) ;;
      _ <- usize_ck (m1 * n1) ;;
      Ok (faces, [], N.to_nat m1)
  | [x; y; z] =>
      x <- unwrap (parse x) ;; y <- unwrap (parse y) ;; z <- unwrap (parse z) ;;
      Ok (faces, points ++ [V3 x y z], cols)
  | _ => Ok st
  end.
(** bezier.rs:7-59, bspline.rs:6-67 *)
Definition load_teapot (division : nat * nat) (text : list N) : outcome (list (SurfacePatch F)) :=
  ' (faces, points, cols) <- foldM (teapot_line division) ([], [], 0%nat) (lines text) ;;
  f <- teapot_face division points cols ;;
  Ok (faces ++ [f]).
End Teapot.
Section Surfaces.
Context {F : Type} {NF : Num F} {TF : Trig F}.
Definition bezier_teapot (g : Grid (vec3 F)) : outcome (Surface F) := g <- bezier_surface_new g ;; Ok (bezier3_surface g).
Definition bspline_teapot (degree : nat * nat) (g : Grid (vec3 F)) : outcome (Surface F) :=
  s <- bss_uniform_clamped g degree ;; Ok (bss3_surface s).
(** bezier.rs:61-65: the OBJ file (the STL file is written from the same meshes) *)
Definition teapot_obj (fmt : F -> list N) (faces : list (SurfacePatch F)) : outcome (list N) :=
  model_obj_file fmt (map patch_get_triangle_mesh faces).
End Surfaces.
