(** Model of /repo/examples/convert_stp.rs: a STEP file is read, its faces are written as OBJ and
    its curves as SVG.  As elsewhere the model starts from the entity table of the file, and
    returns the texts instead of writing files; file names and I/O errors are not modelled. *)
From Verif Require Import Prelude Num M_vec M_utils M_curve M_surface M_files M_step.

Section Convert.
Context {F : Type} {NF : Num F} {TF : Trig F}.
(** face.rs:68-72, get_triangle_mesh of a face made at step_reader.rs:455-459 *)
Definition step_face_mesh (fuel : nat) (rnd : nat -> nat -> list bool -> F) (f : StepFace) : outcome (TriangleMesh F) :=
  trimmed_get_triangle_mesh fuel rnd {| ts_surface := stf_surface f; ts_bounds := map (map dyn_segment) (stf_bounds f) |}.
(** model.rs:72-73, the meshes of the faces in order; [rnd k] are the random numbers drawn for the
    k-th face. *)
Definition step_meshes (fuel : nat) (rnd : nat -> nat -> nat -> list bool -> F) (faces : list StepFace) : list (outcome (TriangleMesh F)) :=
  map (fun '(k, f) => step_face_mesh fuel (rnd k) f) (enumerate faces).

(** examples/convert_stp.rs:3-17: the text of the OBJ file and the paths of the SVG file, each only
    if there is something to write.  [fmt] and [fmt2] stand for the text of a f64 with [{}] and [{:.2}]. *)
Definition convert_stp (fmt fmt2 : F -> list N) (fuel : nat) (rnd : nat -> nat -> nat -> list bool -> F)
    (svg_rnd : nat -> nat -> list bool -> F) (t : table F) : outcome (option (list N) * option (list (list N))) :=
  ' (faces, curves) <- read_model t ;;
  obj <- (if (0 <? length faces)%nat then text <- model_obj_file fmt (step_meshes fuel rnd faces) ;; Ok (Some text) else Ok None) ;;
  svg <- (if (0 <? length curves)%nat then paths <- model_svg_paths fmt2 fuel svg_rnd curves ;; Ok (Some paths) else Ok None) ;;
  Ok (obj, svg).
End Convert.
