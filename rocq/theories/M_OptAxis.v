(** Model of check_axis_size and axis_size of magpi/opt.py for any axis; M_Opt has axis 0
    (definitions only). *)
From Coquelicot Require Import Coquelicot.
From Verif Require Import Base M_Tensor M_Opt.

(** opt.py:24-25, 33-34 [tree_leaves(tree_map(lambda p: p.shape[axis], tree))]; a pytree is
    the list of the shapes of its leaves *)
Definition axis_sizes (shapes : list (list nat)) (axis : Z) : res (list nat) :=
  sequence (map (fun s => pyget s axis) shapes).
(** opt.py:23-27 *)
Definition check_axis_size_at (shapes : list (list nat)) (axis : Z) : res bool :=
  ss <- axis_sizes shapes axis ;;
  s <- first_of ss ;;
  Ok (forallb (fun s' => Nat.eqb s' s) ss).
(** opt.py:30-35 *)
Definition axis_size_at (shapes : list (list nat)) (axis : Z) : res nat :=
  b <- check_axis_size_at shapes axis ;;
  _ <- assert_ b ;;
  ss <- axis_sizes shapes axis ;;
  first_of ss.
