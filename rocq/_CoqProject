-Q theories Verif
theories/TreeMathModel.v
theories/TreeMathSpec.v
theories/TreeMathProofs.v
theories/TreeMathProps.v
theories/ResModel.v
theories/KeysModel.v
theories/TreeModel.v
theories/TreeSpec.v
theories/TreeOps.v
theories/TreeView.v
theories/TreeProofs.v
theories/TreeInv.v
theories/SecrecySpec.v
theories/TreeRun.v
theories/SecrecyProofs.v
theories/TreePropsProofs.v
theories/TreeProps.v
theories/KeysSpec.v
theories/KeysProofs.v
theories/KeysProps.v
theories/OpsModel.v
theories/OpsSpec.v
theories/OpsInv.v
theories/OpsProofs.v
theories/OpsEpochs.v
theories/OpsPropsProofs.v
theories/OpsProps.v
theories/CgkaModel.v
theories/CgkaSpec.v
theories/CgkaProofs.v
theories/OpsExtend.v
theories/CgkaReplay.v
theories/CgkaConverge.v
theories/NetSpec.v
theories/NetProofs.v
theories/CgkaSound.v
theories/NetKeys.v
theories/NetAgree.v
theories/NetInv.v
theories/NetRun.v
theories/CgkaPropsProofs.v
theories/CgkaProps.v
theories/NetProps.v
theories/AccessModel.v
theories/GroupModel.v
theories/GroupSpec.v
theories/GroupProofs.v
theories/GroupReplay.v
theories/GroupMembers.v
theories/GroupHistory.v
theories/GroupTransitive.v
theories/GroupPropsProofs.v
theories/GroupExamples.v
theories/AccessProps.v
theories/GroupProps.v
theories/PrekeyModel.v
theories/PrekeySpec.v
theories/PrekeyProofs.v
theories/PrekeyPropsProofs.v
theories/PrekeyProps.v
theories/SealModel.v
theories/SealSpec.v
theories/SealProofs.v
theories/SealProps.v
theories/CipherModel.v
theories/CipherSpec.v
theories/CipherProofs.v
theories/CipherPropsProofs.v
theories/CipherProps.v
theories/UtilModel.v
theories/UtilSpec.v
theories/UtilProofs.v
theories/UtilProps.v
theories/HiveModel.v
theories/HiveSpec.v
theories/HiveProofs.v
theories/HivePropsProofs.v
theories/HiveExamples.v
theories/HiveProps.v
theories/SyncModel.v
theories/SyncSpec.v
theories/SyncProofs.v
theories/SyncPropsProofs.v
theories/SyncProps.v
theories/ArchiveModel.v
theories/ArchiveSpec.v
theories/ArchiveProofs.v
theories/ArchivePropsProofs.v
theories/ArchiveProps.v
theories/DocModel.v
theories/DocSpec.v
theories/DocKeys.v
theories/DocProofs.v
theories/DocEffects.v
theories/DocPropsProofs.v
theories/DocExamples.v
theories/DocProps.v
theories/TransactModel.v
theories/TransactSpec.v
theories/TransactLocal.v
theories/TransactCommit.v
theories/TransactExamples.v
theories/TransactProps.v
theories/TurnSpec.v
theories/TurnTree.v
theories/TurnLine.v
theories/TurnCalls.v
theories/TurnProofs.v
theories/TurnPropsProofs.v
theories/TurnRead.v
theories/TurnRun.v
theories/TurnProps.v
theories/SecrecyTime.v
theories/SecrecyOpen.v
theories/TurnSecretSpec.v
theories/TurnSecretProofs.v
theories/TurnSecretRun.v
theories/TurnSecretProps.v
theories/LockModel.v
theories/LockSpec.v
theories/LockProofs.v
theories/LockProps.v
theories/GroupNestedSpec.v
theories/GroupNested.v
theories/GroupNestedProps.v
theories/CgkaRow.v
theories/GrowSpec.v
theories/CgkaGrow.v
theories/GrowNet.v
theories/GrowReceive.v
theories/GrowPropsProofs.v
theories/GrowProps.v
theories/OpsAlone.v
theories/ReadSpec.v
theories/ReadTree.v
theories/ReadWorld.v
theories/ReadNet.v
theories/ReadMade.v
theories/ReadPropsProofs.v
theories/ReadRoster.v
theories/ReadProps.v
theories/ShutSpec.v
theories/ShutProofs.v
theories/ShutPropsProofs.v
theories/ShutProps.v
theories/EffectSpec.v
theories/EffectPropsProofs.v
theories/EffectProps.v
theories/AudienceProofs.v
theories/AudienceProps.v
theories/EffectDocProps.v
theories/TeamSpec.v
theories/TeamProofs.v
theories/TeamEffects.v
theories/TeamPropsProofs.v
theories/TeamProps.v
theories/TeamCases.v
theories/ListenSpec.v
theories/ListenProofs.v
theories/ListenPropsProofs.v
theories/ListenProps.v
theories/FailModel.v
theories/FailSpec.v
theories/FailProofs.v
theories/FailKeys.v
theories/FailExamples.v
theories/FailProps.v
theories/ArriveModel.v
theories/ArriveSpec.v
theories/ArriveProofs.v
theories/ArriveProps.v
theories/ArriveCases.v
theories/InviteModel.v
theories/InviteSpec.v
theories/InviteProofs.v
theories/InviteProps.v
theories/InviteCases.v
theories/SettleSpec.v
theories/SettleProofs.v
theories/SettleProps.v
theories/SettleCases.v
theories/QueryModel.v
theories/QuerySpec.v
theories/QueryProofs.v
theories/QueryProps.v
theories/QueryCases.v
theories/RememberModel.v
theories/RememberSpec.v
theories/RememberProofs.v
theories/RememberProps.v
theories/RememberCases.v
theories/RestoreProofs.v
theories/RestoreProps.v
theories/RestoreCases.v
theories/ResumeSpec.v
theories/ResumeProofs.v
theories/ResumeProps.v
theories/ResumeCases.v
theories/SourceSpec.v
theories/SourceProofs.v
theories/SourceProps.v
theories/SourceCases.v
theories/LackModel.v
theories/LackSpec.v
theories/LackProofs.v
theories/LackProps.v
theories/LackCases.v
theories/TallyModel.v
theories/TallySpec.v
theories/TallyProofs.v
theories/TallyProps.v
theories/TallyCases.v
theories/BadgeModel.v
theories/BadgeProps.v
theories/BadgeCases.v
