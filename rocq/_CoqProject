-Q theories Verif
theories/Base.v
theories/FstModel.v
theories/FstProofs.v
theories/FstProofs2.v
theories/FstProofs3.v
theories/FstProofs4.v
theories/FstProps.v
theories/FstIter.v
theories/FstIterProps.v
theories/FstMove.v
theories/FstMoveProps.v
theories/StModel.v
theories/StProofs.v
theories/StProofs2.v
theories/StProps.v
theories/DdvModel.v
theories/DdvProps.v
theories/SsmModel.v
theories/SsmProps.v
theories/SsmProps2.v
theories/MtvModel.v
theories/MtvProofs.v
theories/MtvTac.v
theories/MtvSet.v
theories/MtvEmpty.v
theories/MtvInsert.v
theories/MtvAppend.v
theories/MtvErase.v
theories/MtvRange.v
theories/MtvEmpty2.v
theories/MtvErase2.v
theories/MtvRange2.v
theories/MtvRange3.v
theories/MtvResize.v
theories/MtvModel2.v
theories/MtvXfer.v
theories/MtvXferMerge.v
theories/MtvXferHole.v
theories/MtvXferSteps.v
theories/MtvXferProofs.v
theories/MtvSwapParts.v
theories/MtvSwapExch.v
theories/MtvSwapProofs.v
theories/MtvSwapMain.v
theories/MtvSpec.v
theories/MtvWrap.v
theories/MtvBridge.v
theories/MtvBridge2.v
theories/MtvProps.v
theories/MtvXferProps.v
theories/TrieModel.v
theories/TrieSpec.v
theories/TrieProofs.v
theories/TrieProofs2.v
theories/TrieProofs3.v
theories/TrieProps.v
theories/TrieBack.v
theories/TrieProps2.v
theories/TrieWrite.v
theories/TrieProps3.v
theories/PackModel.v
theories/PackSpec.v
theories/PackProofs.v
theories/PackSim.v
theories/PackSim2.v
theories/PackCopy.v
theories/PackTable.v
theories/PackSave.v
theories/PackBridge.v
theories/PackProps.v
theories/PackProps2.v
theories/PqtModel.v
theories/PqtSpec.v
theories/PqtProofs.v
theories/PqtRemove.v
theories/PqtRemove2.v
theories/PqtMain.v
theories/PqtProps.v
theories/RtModel.v
theories/RtSpec.v
theories/RtBox.v
theories/RtPerm.v
theories/RtTree.v
theories/RtShape.v
theories/RtSplit.v
theories/RtInsert.v
theories/RtSearch.v
theories/RtObs.v
theories/RtErase.v
theories/RtErase2.v
theories/RtBulk.v
theories/RtWrite.v
theories/RtSpec2.v
theories/RtObs2.v
theories/RtProps.v
theories/RtProps2.v
theories/RtProps3.v
theories/RtIter.v
theories/RtProps4.v
theories/RtProps5.v
theories/MtvAdjust.v
theories/MtvAdjustProps.v
theories/CollModel.v
theories/CollProps.v
theories/CollProps2.v
theories/MtvIds.v
theories/MtvCow.v
theories/MtvCowSpec.v
theories/MtvCowProofs.v
theories/MtvCowProofs2.v
theories/MtvCowProofs3.v
theories/MtvCowProps.v
theories/MtxModel.v
theories/MtxSpec.v
theories/MtxProofs.v
theories/MtxProofs2.v
theories/MtxProofs3.v
theories/MtxProofs4.v
theories/MtxProofs5.v
theories/MtxProps.v
theories/MtxProps2.v
theories/MtxProps3.v
theories/MtvAos.v
theories/MtvAosSpec.v
theories/MtvAosProofs.v
theories/MtvAosProps.v
theories/MtvIter.v
theories/MtvIterSpec.v
theories/MtvIterProps.v
theories/MtvPos.v
theories/MtvPosProps.v
theories/PqtIter.v
theories/PqtIterSpec.v
theories/PqtIterProps.v
theories/BlkModel.v
theories/BlkProps.v
