(** Distance transform of matrices in MATLAB, toolbox/imop/vl_imdisttf.c:20-127, on the transform of rows of ImDist_Model.  The numbers are exact. *)
From Coq Require Import List Arith ZArith QArith Bool.
Import ListNotations.
From Verif Require Import Base Loop ImDist_Model.
Local Open Scope nat_scope.

(** the buffers of a transform of rows of [n] pixels, imopv.c:350-353, with arbitrary contents *)
Definition buffers (fill : ext) (q : Q) (i n : nat) : env := mk_env (repeat fill (n + 1)) (repeat q n) (repeat i n) (repeat i n).
(** vl_imdisttf.c:29-30 and 46-57: the parameters, [None] if they are refused *)
Definition get_param (p : option (Q * Q * Q * Q)) : option (Q * Q * Q * Q) :=
  match p with
  | None => Some (1, 0, 1, 0)%Q
  | Some (a, b, c, d) => if Qle_bool 0 a && Qle_bool 0 c then Some (a, b, c, d) else None
  end.
(** vl_imdisttf.c:63-127 for a matrix of [M] rows and [N] columns; [Some None] is an error; [fill], [q] and [i] are contents of new buffers *)
Definition imdisttf (eps : Q) (fill : ext) (q : Q) (i : nat) (image : list Q) (M N : nat) (p : option (Q * Q * Q * Q)) (want_indexes : bool)
    : option (option (list Q * option (list nat))) :=
  match get_param p with
  | None => Some None
  | Some (p0, p1, p2, p3) =>
    let dt := repeat 0%Q (M * N) in
    let indexes := if want_indexes then Some (map (fun k => k + 1) (seq 0 (M * N))) else None in
    do (dt, indexes) <- disttf p2 p3 eps (Some image) M N 1 M (buffers fill q i M) dt indexes;
    do (dt, indexes) <- disttf p0 p1 eps None N M M 1 (buffers fill q i N) dt indexes;
    Some (Some (dt, indexes))
  end.
