(** The persisted consensus metadata: specification.  What the replica reads back is described by a record of plain values and by the
    list of the transactions that are complete; no ids, slots, buffers or byte formats. *)
From Coq Require Import List Arith NArith Bool Lia.
From Verif Require Import Lib_Bytes Meta_Model.
Import ListNotations.
Local Open Scope N_scope.

Record meta := mkMeta {
  m_lastExec : N; m_primUsed : N; m_lower : N; m_lastView : N; m_lastStable : N;
  m_seq : N -> seqData;            (* by sequence number *)
  m_check : N -> checkData;        (* by sequence number *)
  m_exit : exitDesc; m_new : newDesc; m_exec : execDesc; m_stable : list msg;
  m_user : option bytes; m_rsi : N -> option bytes; m_erase : bool; m_epoch : bool; m_dbck : option bytes }.

(** A new database *)
Definition meta0 (c : cfg) : meta :=
  mkMeta 0 0 0 0 0 (fun _ => seq0) (fun _ => check0) exit0 (new0 c) exec0 [] None (fun _ => None) false false None.

Definition setField (e : seqData) (f : seqField) : seqData :=
  match f with
  | PP m => mkSeq m (sq_fcp e) (sq_pf e) (sq_cf e) (sq_force e) (sq_slow e)
  | FCP m => mkSeq (sq_pp e) m (sq_pf e) (sq_cf e) (sq_force e) (sq_slow e)
  | PF m => mkSeq (sq_pp e) (sq_fcp e) m (sq_cf e) (sq_force e) (sq_slow e)
  | CF m => mkSeq (sq_pp e) (sq_fcp e) (sq_pf e) m (sq_force e) (sq_slow e)
  | Force b => mkSeq (sq_pp e) (sq_fcp e) (sq_pf e) (sq_cf e) b (sq_slow e)
  | Slow b => mkSeq (sq_pp e) (sq_fcp e) (sq_pf e) (sq_cf e) (sq_force e) b
  end.
Definition at_ {A} (f : N -> A) (n : N) (a : A) : N -> A := fun k => if k =? n then a else f k.

(** The effect of one call of a setter *)
Definition upd (M : meta) (s : setter) : meta :=
  let '(mkMeta e pu lo lv st sq ck ex nw xc sb us rs er ep dc) := M in
  match s with
  | SLastExec n => mkMeta n pu lo lv st sq ck ex nw xc sb us rs er ep dc
  | SPrimUsed n => mkMeta e n lo lv st sq ck ex nw xc sb us rs er ep dc
  | SLower n => mkMeta e pu n lv st sq ck ex nw xc sb us rs er ep dc
  | SLastView n => mkMeta e pu lo n st sq ck ex nw xc sb us rs er ep dc
  | SExit x => mkMeta e pu lo lv st sq ck x nw xc sb us rs er ep dc
  | SNew x => mkMeta e pu lo lv st sq ck ex x xc sb us rs er ep dc
  | SExec x => mkMeta e pu lo lv st sq ck ex nw x sb us rs er ep dc
  | SStable l => mkMeta e pu lo lv st sq ck ex nw xc l us rs er ep dc
  | SClearSeq => mkMeta e pu lo lv st (fun _ => seq0) ck ex nw xc sb us rs er ep dc
  | SLastStable n =>   (* everything up to the new stable sequence number is forgotten, its own checkpoint message is kept *)
      mkMeta e pu lo lv n (fun k => if k <=? n then seq0 else sq k) (fun k => if k <? n then check0 else ck k) ex nw xc sb us rs er ep dc
  | SSeq n f => mkMeta e pu lo lv st (at_ sq n (setField (sq n) f)) ck ex nw xc sb us rs er ep dc
  | SMark n => mkMeta e pu lo lv st sq (at_ ck n (mkCheck (ck_msg (ck n)) true)) ex nw xc sb us rs er ep dc
  | SCkpt n m => mkMeta e pu lo lv st sq (at_ ck n (mkCheck m (ck_mark (ck n)))) ex nw xc sb us rs er ep dc
  | SUser b => mkMeta e pu lo lv st sq ck ex nw xc sb (Some b) rs er ep dc
  | SRsi i b => mkMeta e pu lo lv st sq ck ex nw xc sb us (at_ rs i (Some b)) er ep dc
  end.
(** The writes that are transactions of their own *)
Definition updD (M : meta) (o : direct) : meta :=
  let '(mkMeta e pu lo lv st sq ck ex nw xc sb us rs er ep dc) := M in
  match o with
  | DUser b => mkMeta e pu lo lv st sq ck ex nw xc sb (Some b) rs er ep dc
  | DErase => mkMeta e pu lo lv st sq ck ex nw xc sb us rs true ep dc
  | DEpoch b => mkMeta e pu lo lv st sq ck ex nw xc sb us rs er b dc
  | DDbCkpt b => mkMeta e pu lo lv st sq ck ex nw xc sb us rs er ep (Some b)
  end.

(** The writes of the database: the two of the initialization, the erasure at start, a transaction, a single write. *)
Inductive tx := TNum | TInit | TErase | TSet (l : list setter) | TDirect (o : direct).
(** What they amount to: nothing, a database whose initialization is incomplete, or metadata. *)
Inductive contents := Blank | Numbered | Live (M : meta).
Definition updT (c : cfg) (a : contents) (t : tx) : contents :=
  match t, a with
  | TNum, Blank => Numbered
  | TInit, Numbered => Live (meta0 c)
  | TErase, Live _ => Blank
  | TSet l, Live M => Live (fold_left upd l M)
  | TDirect o, Live M => Live (updD M o)
  | _, _ => a
  end.
Definition contentsOf (c : cfg) (h : list tx) : contents := fold_left (updT c) h Blank.
(** The start of a replica completes the initialization, and erases the metadata if they say so. *)
Definition restart (c : cfg) (h : list tx) : list tx :=
  match contentsOf c h with
  | Blank => h ++ [TNum; TInit]
  | Numbered => h ++ [TInit]
  | Live M => if m_erase M then h ++ [TErase; TNum; TInit] else h
  end.
Definition metaOf (c : cfg) (h : list tx) : meta := match contentsOf c h with Live M => M | _ => meta0 c end.

(** The completed writes, the calls of the open transaction, the nesting depth, and how many completed writes are known to be on
    stable storage, after a list of calls.  A crash keeps the oldest [k] writes, drops the open transaction, and restarts. *)
Record sys := mkSys { hist : list tx; pend : list setter; depth : nat; durable : nat }.
Definition sys0 (c : cfg) := mkSys (restart c []) [] 0 0.
Definition sstep (c : cfg) (s : sys) (e : event) : sys :=
  match e with
  | EBegin => mkSys (hist s) (pend s) (S (depth s)) (durable s)
  | EEnd sync =>
      match depth s with
      | S O => mkSys (hist s ++ [TSet (pend s)]) [] 0 (if sync then S (length (hist s)) else durable s)
      | n => mkSys (hist s) (pend s) (pred n) (durable s)
      end
  | ESet x => mkSys (hist s) (pend s ++ [x]) (depth s) (durable s)
  | EDirect o => mkSys (hist s ++ [TDirect o]) (pend s) (depth s) (durable s)
  | ECrash k => mkSys (restart c (firstn k (hist s))) [] 0 (durable s)
  | _ => s
  end.
Definition after (c : cfg) (es : list event) : sys := fold_left (sstep c) es (sys0 c).
(** never more than 255 transactions within each other *)
Definition shallow (c : cfg) (es : list event) : Prop := forall pre suf, es = pre ++ suf -> (depth (after c pre) <= 255)%nat.

(** What fits the storage.  The numbers are 64 bit integers, a sender has 16 bits; a message has a body of at most
    maxExternalMessageSize bytes; commit proofs have to fit their read buffers. *)
Definition u64 (n : N) : Prop := n < 18446744073709551616.
Definition fitsMsg (c : cfg) (m : msg) : Prop :=
  match m with None => True | Some (s, b) => s < 65536 /\ 1 <= lenN b /\ lenN b <= maxExt c end.
Definition shortMsg (k : N) (m : msg) : Prop := match m with None => True | Some (s, b) => lenN b <= k end.
Definition fitsField (c : cfg) (f : seqField) : Prop :=
  match f with
  | PP m => fitsMsg c m
  | FCP m => fitsMsg c m /\ shortMsg 1056 m
  | PF m | CF m => fitsMsg c m /\ shortMsg 2080 m
  | _ => True
  end.
Definition fitsExit (c : cfg) (x : exitDesc) : Prop :=
  u64 (ex_view x) /\ u64 (ex_stable x) /\ u64 (ex_executed x) /\ u64 (ex_lower x) /\ fitsMsg c (ex_vc x)
  /\ Forall (fun e => fitsMsg c (fst (fst e)) /\ fitsMsg c (snd (fst e))) (ex_elements x) /\ Forall (fitsMsg c) (ex_complaints x).
Definition fitsNew (c : cfg) (x : newDesc) : Prop :=
  u64 (nw_view x) /\ u64 (nw_max x) /\ u64 (nw_lower x) /\ fitsMsg c (nw_msg x) /\ fitsMsg c (nw_vc x) /\ Forall (fitsMsg c) (nw_vcs x).
Definition fitsExec (x : execDesc) : Prop :=
  u64 (xc_seq x) /\ u64 (xc_ticks x) /\ lenN (xc_bytes x) = realSize (xc_nbits x).
Definition fits (c : cfg) (s : setter) : Prop :=
  match s with
  | SLastExec n | SPrimUsed n | SLower n | SLastView n => u64 n
  | SLastStable n => u64 (n + 1)
  | SExit x => fitsExit c x
  | SNew x => fitsNew c x
  | SExec x => fitsExec x
  | SStable ms => lenN ms < 65536 /\ Forall (fitsMsg c) ms
  | SSeq _ f => fitsField c f
  | SCkpt _ m => fitsMsg c m
  | _ => True
  end.
Definition fitsE (c : cfg) (e : event) : Prop := match e with ESet s => fits c s | _ => True end.
(** A configuration whose ids do not exceed the 16 bits of the object counter and whose view-change messages have registered ids *)
Definition goodCfg (c : cfg) : Prop :=
  maxExt c < 4294967296 /\ vcNum c <= 4000 /\ mapEnd c < 65540.

(** What the getters return *)
Record reads (c : cfg) (d : disk) (p : ps) (M : meta) : Prop := {
  rd_lastExec : exists q, getLastExec c d p = Ok (m_lastExec M, q);
  rd_primUsed : getNum c d p idPrimUsed = Ok (m_primUsed M);
  rd_lower : getNum c d p idLower = Ok (m_lower M);
  rd_lastView : exists q, getLastView c d p = Ok (m_lastView M, q);
  rd_lastStable : getNum c d p idLastStable = Ok (m_lastStable M);
  rd_seq : forall n, m_lastStable M < n <= m_lastStable M + 300 ->
      getPP c d p n = Ok (sq_pp (m_seq M n)) /\ getFCP c d p n = Ok (sq_fcp (m_seq M n)) /\ getPF c d p n = Ok (sq_pf (m_seq M n))
      /\ getCF c d p n = Ok (sq_cf (m_seq M n)) /\ getForce c d p n = Ok (sq_force (m_seq M n)) /\ getSlow c d p n = Ok (sq_slow (m_seq M n));
  rd_check : forall n, n mod 150 = 0 -> m_lastStable M <= n < m_lastStable M + 450 ->
      getCkpt c d p n = Ok (ck_msg (m_check M n)) /\ getMark c d p n = Ok (ck_mark (m_check M n));
  rd_exit : getExit c d p = Ok (m_exit M);
  rd_new : getNew c d p = Ok (m_new M);
  rd_exec : exists q, getExec c d p = Ok (m_exec M, q);
  rd_stable : getStable c d p = Ok (m_stable M);
  rd_user : getUser c d = Ok (m_user M);
  rd_rsi : forall i, idRsi + vcNum c + i < numOfObjects c -> getRsi c d i = Ok (m_rsi M i);
  rd_erase : getFlag c d idErase = Ok (m_erase M);
  rd_epoch : getFlag c d idEpoch = Ok (m_epoch M);
  rd_dbck : getBytes c d idDbCkpt (ckMax c) = Ok (m_dbck M) }.
