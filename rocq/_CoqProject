-Q theories Verif

theories/TreeModel.v
theories/TreeSpec.v
theories/TreeProofs.v
theories/TreeProofs2.v
theories/TreeProofs3.v
theories/TreeProofs4.v
theories/TreeProps.v
theories/HashModel.v
theories/HashSpec.v
theories/HashProofs.v
theories/HashProps.v
theories/Bits.v
theories/UtfModel.v
theories/UtfSpec.v
theories/UtfProofs.v
theories/UtfProps.v
theories/CodecModel.v
theories/CodecSpec.v
theories/CodecProofs.v
theories/CodecProps.v
theories/DStringModel.v
theories/DStringSpec.v
theories/DStringProofs.v
theories/DStringProps.v
theories/XxteaModel.v
theories/XxteaProps.v
theories/DigestModel.v
theories/DigestSpec.v
theories/DigestProofs.v
theories/DigestProofs2.v
theories/DigestProofs3.v
theories/DigestProps.v
theories/NumModel.v
theories/NumSpec.v
theories/NumProofs.v
theories/NumProofs2.v
theories/NumProofs3.v
theories/NumProofs4.v
theories/NumProofs5.v
theories/NumProps.v
theories/NumProps2.v
theories/NumJson.v
theories/JsonModel.v
theories/JsonSpec.v
theories/JsonProofs.v
theories/JsonProofs2.v
theories/JsonProofs3.v
theories/JsonProofs4.v
theories/JsonProofs5.v
theories/JsonProofs6.v
theories/JsonProofs7.v
theories/JsonProps.v
theories/ArrayModel.v
theories/ArraySpec.v
theories/ArrayProofs.v
theories/ArrayProofs2.v
theories/ArrayProofs3.v
theories/ArrayProofs4.v
theories/ArrayProofs5.v
theories/ArrayProps.v
theories/VmModel.v
theories/VmSpec.v
theories/VmProofs.v
theories/VmProofs2.v
theories/VmProofs3.v
theories/VmProofs4.v
theories/VmProofs5.v
theories/VmProofs6.v
theories/VmProofs7.v
theories/VmProofs8.v
theories/VmProofs9.v
theories/VmProps.v
theories/LimitModel.v
theories/LimitProps.v
theories/SafeModel.v
theories/SafeSpec.v
theories/SafeProofs.v
theories/SafeProps.v
theories/EventModel.v
theories/EventSpec.v
theories/EventProofs.v
theories/EventProofs2.v
theories/EventProofs3.v
theories/EventProofs4.v
theories/EventProofs5.v
theories/EventProofs6.v
theories/EventProofs7.v
theories/EventProps.v
theories/StackModel.v
theories/StackSpec.v
theories/StackProps.v
theories/ListModel.v
theories/ListSpec.v
theories/ListProofs.v
theories/ListProofs2.v
theories/ListProofs3.v
theories/ListProofs4.v
theories/ListProps.v
theories/GlobModel.v
theories/GlobSpec.v
theories/GlobProofs.v
theories/GlobProps.v
theories/StrModel.v
theories/StrSpec.v
theories/StrProofs.v
theories/StrProofs2.v
theories/StrProps.v
theories/MiscModel.v
theories/MiscSpec.v
theories/MiscProofs.v
theories/MiscProps.v
theories/DictModel.v
theories/DictSpec.v
theories/DictProofs.v
theories/DictProofs2.v
theories/DictProofs3.v
theories/DictProps.v
theories/ValModel.v
theories/ValSpec.v
theories/ValProofs.v
theories/ValProps.v
theories/LexModel.v
theories/LexSpec.v
theories/LexProofs.v
theories/LexProofs2.v
theories/LexProofs3.v
theories/LexProofs4.v
theories/LexProps.v
theories/RefModel.v
theories/RefSpec.v
theories/RefProofs.v
theories/RefProofs2.v
theories/RefProofs3.v
theories/RefProofs4.v
theories/RefProofs5.v
theories/RefProofs6.v
theories/RefProofs7.v
theories/RefProps.v
theories/FnModel.v
theories/FnSpec.v
theories/FnSpec2.v
theories/FnSpec3.v
theories/FnProofs.v
theories/FnProofs2.v
theories/FnProofs3.v
theories/FnProofs4.v
theories/FnProofs5.v
theories/FnProofs6.v
theories/FnProofs7.v
theories/FnProofs8.v
theories/FnProofs9.v
theories/FnProofs10.v
theories/FnProofs11.v
theories/FnProofs12.v
theories/FnProofs13.v
theories/FnProps.v
theories/FnExamples.v
theories/FmtModel.v
theories/FmtSpec.v
theories/FmtProofs.v
theories/FmtProofs2.v
theories/FmtProofs3.v
theories/FmtProofs4.v
theories/FmtProps.v
theories/OpsModel.v
theories/OpsSpec.v
theories/OpsProofs.v
theories/OpsProps.v
theories/RxModel.v
theories/RxSpec.v
theories/RxProofs.v
theories/RxProps.v
theories/HofModel.v
theories/HofSpec.v
theories/HofProofs.v
theories/HofProofs2.v
theories/HofProps.v
theories/ObjModel.v
theories/ObjSpec.v
theories/ObjProofs.v
theories/ObjProofs2.v
theories/ObjProofs3.v
theories/ObjProofs4.v
theories/ObjProofs5.v
theories/ObjProofs6.v
theories/ObjProps.v
theories/CallModel.v
theories/CallSpec.v
theories/CallProofs.v
theories/CallProps.v
theories/OptModel.v
theories/OptSpec.v
theories/OptProofs.v
theories/OptProofs2.v
theories/OptProofs3.v
theories/OptProofs4.v
theories/OptProofs5.v
theories/OptProps.v
theories/NfaModel.v
theories/NfaSpec.v
theories/NfaProofs.v
theories/NfaProofs2.v
theories/NfaProofs3.v
theories/NfaProofs4.v
theories/NfaProps.v
theories/PatModel.v
theories/PatSpec.v
theories/PatProofs.v
theories/PatProofs2.v
theories/PatProps.v
theories/Audit.v
