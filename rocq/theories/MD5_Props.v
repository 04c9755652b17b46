(** Property C08: adobe::md5_t. *)
From Verif Require Import Prelude MD5_Model MD5_Proofs.
From Verif Require MD5_Spec.
Local Open Scope N_scope.

(** Feeding several messages one after the other to the same object, each in an arbitrary
    number of update calls followed by final(). [None] = undefined behaviour. *)
Fixpoint session (m : md5_t) (messages : list (list (list N))) : option (list (list N)) :=
  match messages with
  | [] => Some []
  | cuts :: rest =>
    match updates m cuts with
    | None => None
    | Some m1 =>
      match final m1 with
      | None => None
      | Some (digest, m2) =>
        match session m2 rest with Some ds => Some (digest :: ds) | None => None end
      end
    end
  end.

(** C08. Whatever buffer_m contains initially, whatever the messages and however each is cut
    into update calls, every digest is the RFC 1321 digest of the concatenation of its pieces,
    and no write leaves the 64-byte buffer. *)
Theorem C08_md5_is_rfc1321_for_every_cut :
  forall (uninitialised : list N) (messages : list (list (list N))),
    length uninitialised = 64%nat ->
    Forall (fun cuts => Forall (fun b => b < 256) (concat cuts)) messages ->
    session (reset uninitialised) messages
    = Some (map (fun cuts => MD5_Spec.md5 (concat cuts)) messages).
Proof.
  intros buf messages Hb HF.
  assert (G : forall m, Rep m [] -> session m messages = Some (map (fun cuts => MD5_Spec.md5 (concat cuts)) messages)).
  { induction HF as [|cuts rest Hc HF IH]; intros m HR; [reflexivity|].
    cbn [session map].
    destruct (Rep_updates cuts m [] HR) as (m1 & -> & HR1). cbn [app] in HR1.
    destruct (final_spec m1 _ HR1 Hc) as (m2 & -> & HR2).
    rewrite (IH m2 HR2). reflexivity. }
  apply G. apply Rep_reset. exact Hb.
Qed.
Print Assumptions C08_md5_is_rfc1321_for_every_cut.

(** The one-call convenience function, /repo/adobe/md5.hpp:124-130. *)
Corollary C08_md5_chunking_independent :
  forall (u1 u2 : list N) (cuts1 cuts2 : list (list N)),
    length u1 = 64%nat -> length u2 = 64%nat ->
    Forall (fun b => b < 256) (concat cuts1) -> concat cuts1 = concat cuts2 ->
    session (reset u1) [cuts1] = session (reset u2) [cuts2].
Proof.
  intros u1 u2 cuts1 cuts2 H1 H2 HF E.
  rewrite !C08_md5_is_rfc1321_for_every_cut; auto; simpl; [now rewrite E|].
  constructor; [|constructor]. now rewrite <- E.
Qed.
Print Assumptions C08_md5_chunking_independent.

Example C08_nonvacuous :
  let junk := repeat 0xCC 64 in
  session (reset junk) [[[97]; []; [98; 99]]; [[]]] =
  Some [[0x90;0x01;0x50;0x98;0x3c;0xd2;0x4f;0xb0;0xd6;0x96;0x3f;0x7d;0x28;0xe1;0x7f;0x72];
        [0xd4;0x1d;0x8c;0xd9;0x8f;0x00;0xb2;0x04;0xe9;0x80;0x09;0x98;0xec;0xf8;0x42;0x7e]].
Proof. vm_compute. reflexivity. Qed.
