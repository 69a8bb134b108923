(** Files of the command line drivers, src/generic-driver.h, and the reading of frames by the sift driver, src/sift.c:548-574.
    A double is the list of its eight bytes in the order of the host.  A stream is the list of bytes to read, or of those written with the room left on the device.
    The texts printed and scanned for doubles by the C library and the contents of the file system are parameters. *)
From Coq Require Import List Arith NArith ZArith Bool.
From Verif Require Import Base Str_Model.
Import ListNotations.
Local Open Scope nat_scope.

Inductive err := VL_ERR_OK | VL_ERR_OVERFLOW | VL_ERR_ALLOC | VL_ERR_BAD_ARG | VL_ERR_IO | VL_ERR_EOF.
(** struct _VlFileMeta, generic-driver.h:29-38 *)
Record meta (F : Type) := mk_meta { m_active : bool; m_pattern : list byte; m_protocol : protocol; m_name : list byte; m_file : option F }.
Arguments mk_meta {F}. Arguments m_active {F}. Arguments m_pattern {F}. Arguments m_protocol {F}. Arguments m_name {F}. Arguments m_file {F}.
Definition with_active {F} (s : meta F) (a : bool) : meta F := mk_meta a (m_pattern s) (m_protocol s) (m_name s) (m_file s).
Definition with_protocol {F} (s : meta F) (p : protocol) : meta F := mk_meta (m_active s) (m_pattern s) p (m_name s) (m_file s).
Definition with_pattern {F} (s : meta F) (b : list byte) : meta F := mk_meta (m_active s) b (m_protocol s) (m_name s) (m_file s).
Definition with_name {F} (s : meta F) (b : list byte) : meta F := mk_meta (m_active s) (m_pattern s) (m_protocol s) b (m_file s).
Definition with_file {F} (s : meta F) (f : option F) : meta F := mk_meta (m_active s) (m_pattern s) (m_protocol s) (m_name s) f.

(** vl_file_meta_parse, generic-driver.h:63-96 *)
Definition meta_parse {F} (self : meta F) (optarg : option (list byte)) : option (meta F * err) :=
  let self := with_active self true in
  match optarg with
  | None => Some (self, VL_ERR_OK)
  | Some optarg =>
    do (p, k) <- parse_protocol optarg;
    let arg := skipn k optarg in
    match p with
    | PROT_UNKNOWN => Some (self, VL_ERR_BAD_ARG)
    | _ =>
      let self := match p with PROT_NONE => self | _ => with_protocol self p end in
      do n <- string_length arg;
      if 0 <? n then
        do (b, q) <- string_copy (Some (m_pattern self)) (length (m_pattern self)) arg;
        match b with
        | None => None
        | Some b => let self := with_pattern self b in
          if length (m_pattern self) <=? q then Some (self, VL_ERR_OVERFLOW) else Some (self, VL_ERR_OK)
        end
      else Some (self, VL_ERR_OK)
    end
  end.

(** vl_file_meta_open, generic-driver.h:110-138; [fopen] gives the stream of a name; '%' is 37 *)
Definition meta_open {F} (fopen : list byte -> option F) (self : meta F) (basename : list byte) : option (meta F * err) :=
  if negb (m_active self) then Some (self, VL_ERR_OK) else
  do (b, q) <- replace_wildcard (Some (m_name self)) (length (m_name self)) (m_pattern self) 37%N 0%N basename;
  match b with
  | None => None
  | Some b => let self := with_name self b in
    if length (m_name self) <=? q then Some (self, VL_ERR_OVERFLOW) else
    let self := with_file self (fopen (m_name self)) in
    match m_file self with None => Some (self, VL_ERR_IO) | Some _ => Some (self, VL_ERR_OK) end
  end.
(** vl_file_meta_close, generic-driver.h:145-152 *)
Definition meta_close {F} (self : meta F) : meta F := with_file self None.

(** vl_swap_host_big_endianness_8, vl/host.h:587-611; [big]: the host is big endian *)
Definition swap8 (big : bool) (x : list byte) : option (list byte) :=
  let at_ k := aget x (if big then k else 7 - k) in
  do a <- at_ 0; do b <- at_ 1; do c <- at_ 2; do d <- at_ 3; do e <- at_ 4; do f <- at_ 5; do g <- at_ 6; do h <- at_ 7;
  Some [a; b; c; d; e; f; g; h].

(** an output stream: bytes written and room left *)
Definition out := (list byte * nat)%type.
(** fwrite of one element: the number of elements written *)
Definition fwrite (f : out) (x : list byte) : out * Z :=
  let '(l, room) := f in
  if length x <=? room then ((l ++ x, room - length x), 1%Z) else ((l ++ firstn room x, 0), 0%Z).
(** fprintf of a text: the number of characters, negative for an error *)
Definition fprintf (f : out) (x : list byte) : out * Z :=
  let '(l, room) := f in
  if length x <=? room then ((l ++ x, room - length x), Z.of_nat (length x)) else ((l ++ firstn room x, 0), (-1)%Z).
Section Put.
Variables (big : bool) (print_g print_d : list byte -> list byte).
(** vl_file_meta_put_double, generic-driver.h:164-188; [print_g] is the text of the number for %g *)
Definition put_double (self : meta out) (x : list byte) : option (meta out * err) :=
  match m_file self with
  | None => None
  | Some f =>
    match m_protocol self with
    | PROT_ASCII => let '(f, e) := fprintf f (print_g x ++ [32%N]) in
      Some (with_file self (Some f), if (e =? 0)%Z then VL_ERR_OK else VL_ERR_ALLOC)
    | PROT_BINARY => do y <- swap8 big x; let '(f, n) := fwrite f y in
      let e := (n <? 1)%Z in Some (with_file self (Some f), if e then VL_ERR_ALLOC else VL_ERR_OK)
    | _ => None
    end
  end.
(** vl_file_meta_put_uint8, generic-driver.h:200-224 *)
Definition put_uint8 (self : meta out) (x : byte) : option (meta out * err) :=
  match m_file self with
  | None => None
  | Some f =>
    match m_protocol self with
    | PROT_ASCII => let '(f, e) := fprintf f (print_d [x] ++ [32%N]) in
      Some (with_file self (Some f), if (e =? 0)%Z then VL_ERR_OK else VL_ERR_ALLOC)
    | PROT_BINARY => let '(f, n) := fwrite f [x] in
      Some (with_file self (Some f), if (n <? 1)%Z then VL_ERR_ALLOC else VL_ERR_OK)
    | _ => None
    end
  end.
End Put.

(** the result of a scan by the C library *)
Inductive scanned := Scan_eof | Scan_bad (rest : list byte) | Scan_ok (x rest : list byte).
Section Get.
Variables (big : bool) (scan : list byte -> scanned).
(** vl_file_meta_get_double, generic-driver.h:237-264; the result is unchanged if there is an error *)
Definition get_double (self : meta (list byte)) : option (meta (list byte) * option (list byte) * err) :=
  match m_file self with
  | None => None
  | Some f =>
    match m_protocol self with
    | PROT_ASCII =>
      match scan f with
      | Scan_eof => Some (with_file self (Some []), None, VL_ERR_EOF)
      | Scan_bad r => Some (with_file self (Some r), None, VL_ERR_BAD_ARG)
      | Scan_ok x r => Some (with_file self (Some r), Some x, VL_ERR_OK)
      end
    | PROT_BINARY =>
      if length f <? 8 then Some (with_file self (Some []), None, VL_ERR_BAD_ARG) else
      do x <- swap8 big (firstn 8 f);
      Some (with_file self (Some (skipn 8 f)), Some x, VL_ERR_OK)
    | _ => None
    end
  end.
(** the frames read by the sift driver, sift.c:548-574: [inl] the frames, [inr] an error; [fuel] bounds the number of rounds *)
Definition frame := (list byte * list byte * list byte * list byte)%type.
Fixpoint read_frames (fuel : nat) (self : meta (list byte)) (ikeys : list frame) : option (list frame + err) :=
  match fuel with
  | O => None
  | S fuel =>
    do (self, x, e) <- get_double self;
    match e, x with
    | VL_ERR_EOF, _ => Some (inl ikeys)
    | VL_ERR_OK, Some x =>
      do (self, y, e) <- get_double self;
      match e, y with
      | VL_ERR_OK, Some y =>
        do (self, s, e) <- get_double self;
        match e, s with
        | VL_ERR_OK, Some s =>
          do (self, th, e) <- get_double self;
          match e, th with
          | VL_ERR_EOF, _ => Some (inl ikeys)
          | VL_ERR_OK, Some th => read_frames fuel self (ikeys ++ [(x, y, s, th)])
          | _, _ => Some (inr VL_ERR_IO)
          end
        | _, _ => Some (inr VL_ERR_IO)
        end
      | _, _ => Some (inr VL_ERR_IO)
      end
    | _, _ => Some (inr VL_ERR_IO)
    end
  end.
End Get.
(** numbers put one after the other *)
Fixpoint put_all big print_g (self : meta out) (xs : list (list byte)) : option (meta out * list err) :=
  match xs with
  | [] => Some (self, [])
  | x :: xs => do (self, e) <- put_double big print_g self x; do (self, es) <- put_all big print_g self xs; Some (self, e :: es)
  end.
Fixpoint get_all big scan (n : nat) (self : meta (list byte)) : option (meta (list byte) * list (list byte)) :=
  match n with
  | O => Some (self, [])
  | S n => do (self, x, _) <- get_double big scan self; match x with None => None | Some x => do (self, xs) <- get_all big scan n self; Some (self, x :: xs) end
  end.
