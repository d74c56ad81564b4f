(** Compile-time configuration of a tree instance.

    Models the constants of include/bw_tree/utility.hpp:112-143 and
    include/bw_tree/bw_tree.hpp:585-618, CMakeLists/README build options.
    Keys are integers compared by [<]: every finite execution uses finitely
    many keys, and any strict total order on finitely many keys embeds into Z
    (the key byte length stays an arbitrary function of the key). *)
From Coq Require Import ZArith NArith List Bool.
Import ListNotations.
Open Scope Z_scope.

Notation key := Z (only parsing).
(** A payload word.  User payloads and page IDs are both stored as raw bytes
    in pages (memcpy, fixlen/node.hpp:268-276), so they share one type. *)
Notation val := N (only parsing).
(** PageID, component/common.hpp; 0 is kNullPtr. *)
Notation pid := N (only parsing).
(** Physical address of a page or a delta record; 0 is nullptr. *)
Notation addr := N (only parsing).

Record cfg := mk_cfg {
  c_varlen  : bool;      (* template flag kIsVarLen *)
  c_vklen   : key -> Z;  (* varlen layout: byte length of a key *)
  c_ksize   : Z;         (* sizeof(Key) *)
  c_maxklen : Z;         (* kMaxKeyLen, bw_tree.hpp:586 *)
  c_paylen  : Z;         (* sizeof(Payload), kPayLen, bw_tree.hpp:589 *)
  c_hdr     : Z;         (* sizeof(Node_t), kHeaderLen, bw_tree.hpp:598 *)
  c_page    : Z;         (* kPageSize, utility.hpp:113 *)
  c_min     : Z;         (* kMinNodeSize, utility.hpp:125 *)
  c_thr     : Z;         (* kDeltaRecordThreshold, utility.hpp:119 *)
  c_maxd    : Z;         (* kMaxDeltaRecordNum, utility.hpp:122 *)
  c_bulkcap : Z;         (* kNodeCapacityForBulkLoading, component/common.hpp *)
  c_garbage : key;       (* content of an uninitialised key slot: any value *)
  c_ptr     : bool       (* IsVarLenData<Key>, utility.hpp:86: keys are pointers (char* ) and the
                            accessors of stored keys return thread-local buffers *)
}.

(** kPtrLen = sizeof(PageID), bw_tree.hpp:592. *)
Definition ptrlen : Z := 8.
(** kMetaLen, bw_tree.hpp:595: 8 bytes of Metadata in the varlen layout. *)
Definition metalen (c : cfg) : Z := if c_varlen c then 8 else 0.
(** Byte length of a stored key. *)
Definition klen (c : cfg) (k : key) : Z := if c_varlen c then c_vklen c k else c_ksize c.
(** Bytes taken by one record (key slot, payload, metadata): fixlen/node.hpp:486,492,
    varlen/node.hpp:523,530; [paysz] is sizeof(T). *)
Definition recsz (c : cfg) (paysz : Z) (k : key) : Z := metalen c + klen c k + paysz.
(** The same for the key-less first record of a leftmost inner node: the fixlen
    layout still reserves a key slot, the varlen layout stores key length 0
    (varlen/node.hpp:89). *)
Definition nullsz (c : cfg) : Z := metalen c + (if c_varlen c then 0 else c_ksize c) + ptrlen.
(** sizeof(T) of Consolidate<T>, bw_tree.hpp:1253-1257. *)
Definition paysz (c : cfg) (inner : bool) : Z := if inner then ptrlen else c_paylen c.

(** The default build (CMakeLists.txt / README) with 8-byte keys and payloads,
    fixed-length layout: BwTreeFixLen<uint64_t, uint64_t>. *)
Definition cfg_fix8 : cfg :=
  mk_cfg false (fun _ => 8) 8 8 8 32 1024 64 4 64 921 0 false.
(** The default build with 8-byte keys and payloads, variable-length layout:
    BwTreeVarLen<uint64_t, uint64_t>. *)
Definition cfg_var8 : cfg :=
  mk_cfg true (fun _ => 8) 8 8 8 32 1024 64 4 64 921 0 false.
