(** Model of class _Requests, jax_sgmc/data/core.py:406-473 (the host side of all data requests).

    Simplifications: uuids are values of type [token]; a uuid generated by [JaxUUID()] is assumed
    to be different from all others (uuid4), hence the constructor [TNew n] for the n-th token
    issued by [_Requests] and [TInit k] for the token of the k-th cache state created by an init_fn.
    (data loader, chain id) pairs = (callback_uuid, chain_id) are values of an arbitrary type with
    decidable equality, here [nat].  The lock makes each call atomic, so a call is one step. *)
From Verif Require Import Base.
Set Implicit Arguments.

(** JaxUUID tokens, core.py:454, 259 *)
Inductive token := TInit (k : nat) | TNew (n : nat).
(** comparison of JaxUUID.as_uuid, core.py:439 *)
Definition token_eqb (a b : token) : bool :=
  match a, b with
  | TInit x, TInit y => x =? y
  | TNew x, TNew y => x =? y
  | _, _ => false
  end.

(** python dictionary lookup / assignment / deletion on association lists *)
(** core.py:429 *)
Definition tlookup {V} (t : token) (d : list (token * V)) : option V :=
  option_map snd (find (fun kv => token_eqb t (fst kv)) d).
(** core.py:436, 460-461 *)
Fixpoint tset {V} (t : token) (v : V) (d : list (token * V)) : list (token * V) :=
  match d with
  | [] => [(t, v)]
  | kv :: r => if token_eqb t (fst kv) then (t, v) :: r else kv :: tset t v r
  end.
(** core.py:434 *)
Definition tdel {V} (t : token) (d : list (token * V)) : list (token * V) :=
  filter (fun kv => negb (token_eqb t (fst kv))) d.
(** core.py:426 *)
Definition clookup {V} (c : nat) (d : list (nat * V)) : option V :=
  option_map snd (find (fun kv => c =? fst kv) d).
(** core.py:457 *)
Fixpoint cset {V} (c : nat) (v : V) (d : list (nat * V)) : list (nat * V) :=
  match d with
  | [] => [(c, v)]
  | kv :: r => if c =? fst kv then (c, v) :: r else kv :: cset c v r
  end.

Section Requests.
Context {L D : Type}.
(** [self._host_data_loaders[callback_uuid].get_batches(chain_id)], core.py:452 *)
Variable ld_get : L -> nat -> L * res D.

(** core.py:408-413 *)
Record rstate := mkR {
  r_cached : list (token * (nat * D * token));   (* _cached_requests, core.py:409 *)
  r_current : list (nat * token);                (* _requests, core.py:410 *)
  r_fresh : nat;                                 (* number of tokens issued so far *)
  r_loader : L }.

(** [_Requests.__call__], core.py:415-463 *)
Definition request (s : rstate) (chain : nat) (tok : token) (device_count : nat) (strict : bool)
  : rstate * res (D * token) :=
  let current_token := clookup chain (r_current s) in
  match tlookup tok (r_cached s) with
  | Some (counter, response, new_token) =>                 (* core.py:430-436 *)
      let cached' := if counter =? 1 then tdel tok (r_cached s)
                     else tset tok (counter - 1, response, new_token) (r_cached s) in
      (mkR cached' (r_current s) (r_fresh s) (r_loader s), Ok (response, new_token))
  | None =>
      let invalid := match current_token with
                     | None => false
                     | Some t => negb (token_eqb t tok) end in
      if invalid then                                        (* core.py:439-448 *)
        if strict then (s, Exc RuntimeError)
        else (s, Exc UnboundLocalError)   (* after warnings.warn, line 463 reads unbound locals *)
      else                                                   (* core.py:452-461 *)
        let new_token := TNew (r_fresh s) in
        match ld_get (r_loader s) chain with
        | (l', Exc e) => (mkR (r_cached s) (r_current s) (S (r_fresh s)) l', Exc e)
        | (l', Ok response) =>
            let cached' := if device_count =? 1 then r_cached s
                           else tset tok (device_count - 1, response, new_token) (r_cached s) in
            (mkR cached' (cset chain new_token (r_current s)) (S (r_fresh s)) l',
             Ok (response, new_token))
        end
  end.

(** the state at program start, core.py:408-413 *)
Definition requests_init (l : L) : rstate := mkR [] [] 0 l.

End Requests.
Arguments rstate : clear implicits.
