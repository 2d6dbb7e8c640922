-Q theories Verif
theories/Base.v
theories/MerkleSpec.v
theories/MerkleModel.v
theories/MerkleProofs.v
theories/MerkleRefute.v
theories/MerkleProps.v
theories/Field.v
theories/Primality.v
theories/Zp.v
theories/UtilsModel.v
theories/XfrModel.v
theories/XfrSpec.v
theories/XfrProofs.v
theories/XfrHonest.v
theories/XfrToy.v
theories/XfrProps.v
theories/XfrRefute.v
theories/PField.v
theories/TurboModel.v
theories/TurboSpec.v
theories/TurboProofs.v
theories/TurboHonest.v
theories/TurboLemmas.v
theories/TurboProps.v
theories/TurboKit.v
theories/MixModel.v
theories/MixSpec.v
theories/MixProofs.v
theories/MixLemmas.v
theories/MixProps.v
theories/Power.v
theories/RescueModel.v
theories/RescueSpec.v
theories/RescueProofs.v
theories/RescueLemmas.v
theories/RescueProps.v
theories/JiveModel.v
theories/JiveSpec.v
theories/JiveProofs.v
theories/JiveProps.v
theories/TurboEmit.v
theories/AxfrModel.v
theories/AxfrSpec.v
theories/AxfrProofs.v
theories/AxfrHonest.v
theories/AxfrLemmas.v
theories/AxfrProps.v
theories/FoldModel.v
theories/FoldProofs.v
theories/FoldLemmas.v
theories/FoldProps.v
theories/UtilsProps.v
theories/NoteModel.v
theories/NoteProofs.v
theories/NoteProps.v
theories/SigmaModel.v
theories/SigmaSpec.v
theories/SigmaProofs.v
theories/SigmaLemmas.v
theories/SigmaProps.v
theories/PolyModel.v
theories/PolySpec.v
theories/PolyProofs.v
theories/PolyLemmas.v
theories/PolyFft.v
theories/PolyProps.v
theories/KzgModel.v
theories/KzgSpec.v
theories/KzgProofs.v
theories/KzgProps.v
theories/PermModel.v
theories/PermSpec.v
theories/PermProofs.v
theories/PermProps.v
theories/PlonkModel.v
theories/PlonkPoly.v
theories/PlonkProofs.v
theories/PlonkCore.v
theories/PlonkHonest.v
theories/PlonkComplete.v
theories/PlonkSpec.v
theories/PlonkSound.v
theories/PlonkAttack.v
theories/PlonkExact.v
theories/PlonkProps.v
theories/AcModel.v
theories/AcSpec.v
theories/AcProofs.v
theories/AcProps.v
theories/CmixModel.v
theories/CmixSpec.v
theories/CmixProofs.v
theories/CmixSystem.v
theories/CmixPhase.v
theories/CmixTop.v
theories/CmixLemmas.v
theories/CmixCount.v
theories/CmixProps.v
theories/MsmModel.v
theories/MsmSpec.v
theories/MsmProofs.v
theories/BucketModel.v
theories/BucketSpec.v
theories/BucketCurve.v
theories/BucketProofs.v
theories/BucketProps.v
theories/KeyModel.v
theories/HybModel.v
theories/KeySpec.v
theories/KeyProofs.v
theories/KeyProps.v
theories/HybProofs.v
theories/HybProps.v
theories/RecordModel.v
theories/RecordSpec.v
theories/RecordProps.v
theories/TraceModel.v
theories/TraceSpec.v
theories/TraceProofs.v
theories/TraceProps.v
theories/BindProps.v
theories/ScalarModel.v
theories/ScalarProps.v
theories/Edwards.v
theories/EccModel.v
theories/EccProofs.v
theories/EccProps.v
theories/SecpPrime.v
theories/SmulModel.v
theories/SmulSpec.v
theories/SmulProofs.v
theories/SmulExact.v
theories/SmulProps.v
theories/SimModel.v
theories/SimSpec.v
theories/SimProofs.v
theories/SimZero.v
theories/SimCircuit.v
theories/SimHonest.v
theories/SimAlloc.v
theories/SimProps.v
theories/AfoldModel.v
theories/AfoldEmit.v
theories/AfoldProofs.v
theories/AfoldHonest.v
theories/AfoldRun.v
theories/AfoldSpec.v
theories/AfoldWhole.v
theories/AfoldBind.v
theories/AfoldProps.v
theories/BindAcProps.v
theories/BindPlonkProps.v
theories/SetupModel.v
theories/ShapeProofs.v
theories/ShapeFold.v
theories/ShapeProps.v
theories/InspModel.v
theories/InspSpec.v
theories/InspProofs.v
theories/InspBind.v
theories/InspRun.v
theories/InspWhole.v
theories/InspNotes.v
theories/InspProps.v
theories/ShapeInsp.v
theories/SetupConf.v
theories/ShapeConfProps.v
theories/ParamsModel.v
theories/ParamsProofs.v
theories/ParamsProps.v
theories/EndProofs.v
theories/EndProps.v
theories/BindConfProps.v
theories/SerModel.v
theories/SerSpec.v
theories/SerProofs.v
theories/SerProps.v
theories/MemoModel.v
theories/MemoProps.v
theories/PackModel.v
theories/PackSpec.v
theories/PackProofs.v
theories/PackProps.v
theories/HistSpec.v
theories/HistProofs.v
theories/HistProps.v
theories/HistNoteSpec.v
theories/HistNoteProps.v
theories/HistConfSpec.v
theories/HistConfProps.v
theories/WireSpec.v
theories/WireProofs.v
theories/WireProps.v
theories/WireConfProps.v
theories/XhistSpec.v
theories/XhistProofs.v
theories/XhistRead.v
theories/XhistProps.v
theories/XhistCore.v
theories/XhistFind.v
theories/XhistMix.v
theories/XhistToy.v
theories/SimForge.v
theories/SimForgeProps.v
theories/TmemoProps.v
theories/HybStreamProps.v
theories/SigmaTieProps.v
theories/SigmaSameProps.v
theories/KordModel.v
theories/KordProps.v
theories/TraceIdProps.v
theories/RecordIdProps.v
