(** The protocol blob: one copy of the schema per version of the schema's own
    format, each behind a version number and a length.

    /repo/pj/context.cpp: getProtoSize l.152-171, encodeProto l.173-196,
    decodeProto l.198-259; /repo/pj/schema/versions.hpp.  Model only.

    The functions compiled for a version (GET_PROTO_SIZE, ENCODE_PROTO) appear
    as a size and a partial function on memory; [C22_round_trip] plugs in the
    model's own size and encode.  FOR_EACH_COMPATIBLE_VERSION becomes a list. *)
From Verif Require Import Base Types Transcode Gen Api.

Record version := mkVersion {
  vn_num : Z;                            (* N *)
  vn_size : Z;                           (* GET_PROTO_SIZE(V)(&reflected) *)
  vn_encode : Z -> mem -> option mem }.  (* ENCODE_PROTO(V)(&reflected, buf) *)

(** getProtoSize l.152-171. *)
Definition get_proto_size (vs : list version) : Z :=
  fold_left (fun n v => wrap64 (wrap64 (wrap64 (n + 8) + 8) + vn_size v)) vs 8.

(** ENCODE_FOR_VERSION l.180-188; the result is the memory and [buf]. *)
Fixpoint encode_versions (vs : list version) (buf : Z) (m : mem) : option (mem * Z) :=
  match vs with
  | [] => Some (m, buf)
  | v :: r =>
      let m := store m buf 8 (vn_num v) in
      let m := store m (buf + 8) 8 (vn_size v) in
      match vn_encode v (buf + 16) m with
      | Some m => encode_versions r (buf + (16 + vn_size v)) m
      | None => None
      end
  end.

(** encodeProto l.173-196. *)
Definition encode_proto (vs : list version) (buf : Z) (m : mem) : option mem :=
  match encode_versions vs (buf + 8) m with
  | Some (m, e) => Some (store m buf 8 (wrap64 (e - buf)))
  | None => None
  end.

(** latest_compatible: version, size, data. *)
Inductive scan :=
| Found (n size data : Z)   (* decode_fn is the one of version n *)
| NoVersion                 (* return {} *)
| Unreadable.               (* reads undefined memory, or never ends *)

Definition finish (latest : Z * Z * Z) : scan :=
  match latest with (n, s, d) => if n =? 0 then NoVersion else Found n s d end.

(** The loop of decodeProto l.213-243.  [known] are the N of
    FOR_EACH_COMPATIBLE_VERSION: the first N equal to [version] and above the
    latest one found is taken; if there is none the loop ends (l.228-236). *)
Fixpoint scan_versions (fuel : nat) (known : list Z) (buf e : Z) (latest : Z * Z * Z)
         (m : mem) : scan :=
  if buf <? e then
    match fuel with
    | O => Unreadable
    | S fuel =>
        match load m buf 8, load m (buf + 8) 8 with
        | Some n, Some size =>
            if existsb (fun k => (n =? k) && (fst (fst latest) <? k)) known
            then scan_versions fuel known (buf + (16 + size)) e (n, size, buf + 16) m
            else finish latest
        | _, _ => Unreadable
        end
    end
  else finish latest.

(** decodeProto up to the choice of the version, l.198-243.  Each turn moves
    [buf] by at least 16, so the fuel is enough. *)
Definition decode_proto (known : list Z) (buf : Z) (m : mem) : scan :=
  match load m buf 8 with
  | Some size => scan_versions (Z.to_nat size) known (buf + 8) (buf + size) (0, 0, 0) m
  | None => Unreadable
  end.

(** std::make_unique<char[]> clears the buffer. *)
Definition cleared (m : mem) (a n : Z) : mem :=
  fun x => if (a <=? x) && (x <? a + n) then Some 0 else m x.

(** The loop l.246-258: decode into ever larger buffers.  [alloc n] is where a
    buffer of n bytes is put; nobody reuses a freed buffer meanwhile.  None: out
    of fuel or the decoder failed otherwise than by reporting a full buffer. *)
Fixpoint decode_growing (fuel : nat) (fconv : Z -> Z -> Z -> Z) (pr : proto) (h : ty)
         (data obj : Z) (alloc : Z -> Z) (dec_size : Z) (m : mem) : option dec_out :=
  match fuel with
  | O => None
  | S fuel =>
      let dbuf := alloc dec_size in
      match decode fconv pr h [] data obj dbuf dec_size (cleared m dbuf dec_size) with
      | DOk o =>
          if 0 <=? o_size o then Some o
          else decode_growing fuel fconv pr h data obj alloc (dec_size * 2) (o_mem o)
      | _ => None
      end
  end.

(** GET_PROTO_SIZE(V) and ENCODE_PROTO(V) are the size and encode functions
    compiled from version V's protocol (/repo/pj/schema: pjc output). *)
Definition version_of (fconv : Z -> Z -> Z -> Z) (n : Z) (pr : proto) (h : ty) (obj : Z)
           (m : mem) : option version :=
  match size_fn fconv pr h [] false obj m with
  | Some sz => Some (mkVersion n sz (fun buf m =>
      match encode fconv pr h [] obj buf m with Ok s => Some (s_mem s) | _ => None end))
  | None => None
  end.
