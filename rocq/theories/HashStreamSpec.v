(** Specification of the hash streams: what a file means, and reading a sequence. *)
From Verif Require Import Common HashStreamModel.

Section Spec.
Context (H : bytes -> bytes) (B : nat).

(** The file [f] holds the data [d]; [e] tells whether it ends there or with a block that
    is not some bytes followed by their hash. *)
Inductive decodes : bytes -> bytes -> bool -> Prop :=
| d_end : decodes [] [] true
| d_block f p d e : f <> [] -> firstn B f = p ++ H p -> decodes (skipn B f) d e -> decodes f (p ++ d) e
| d_bad f : f <> [] -> (forall p, firstn B f <> p ++ H p) -> decodes f [] false.

(** Reading a sequence that ends, or that stops with an error. *)
Definition sstep (d : bytes) (e : bool) (o : hop) : option (hobs * bytes) :=
  match o with
  | HRead n => if n <=? length d then Some (HGot (firstn n d), skipn n d) else if e then Some (HGot d, []) else None
  | HEnd => match d with [] => if e then Some (HIsEnd true, []) else None | _ => Some (HIsEnd false, d) end
  end.
Fixpoint srun (d : bytes) (e : bool) (os : list hop) : list hobs * res unit :=
  match os with
  | [] => ([], Ok tt)
  | o :: os => match sstep d e o with
               | Some (b, d1) => let '(l, r) := srun d1 e os in (b :: l, r)
               | None => ([], Throw Corruption)
               end
  end.

(** The blocks of the data [d], each of [n] bytes but the last. *)
Inductive blocks_of (n : nat) : bytes -> list bytes -> Prop :=
| bo_nil : blocks_of n [] []
| bo_last d : d <> [] -> length d <= n -> blocks_of n d [d]
| bo_more p d bs : length p = n -> d <> [] -> blocks_of n d bs -> blocks_of n (p ++ d) (p :: bs).
Definition stored_blocks (bs : list bytes) : bytes := concat (map (fun p => p ++ H p) bs).
End Spec.
