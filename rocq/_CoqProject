-Q theories Verif
theories/Bytes.v
theories/BucketStorage_model.v
theories/BucketStorage_spec.v
theories/BucketStorage_proofs.v
theories/BucketStorage_client.v
theories/BucketStorage_proofs2.v
theories/BucketStorage_props.v
theories/Bucket_model.v
theories/Bucket_spec.v
theories/Bucket_proofs.v
theories/Bucket_client.v
theories/Bucket_proofs2.v
theories/Bucket_props.v
theories/BloomFilter_model.v
theories/BloomFilter_spec.v
theories/BloomFilter_client.v
theories/BloomFilter_proofs.v
theories/BloomFilter_props.v
theories/BigHash_model.v
theories/BigHash_spec.v
theories/BigHash_client.v
theories/BigHash_proofs.v
theories/BigHash_proofs2.v
theories/BigHash_props.v
theories/Refcount_model.v
theories/Refcount_spec.v
theories/Refcount_proofs.v
theories/Refcount_proofs2.v
theories/Refcount_props.v
theories/DList_model.v
theories/DList_spec.v
theories/DList_proofs.v
theories/DList_props.v
theories/MMLru_model.v
theories/MMLru_spec.v
theories/MMLru_proofs.v
theories/MMLru_props.v
theories/HashTable_model.v
theories/HashTable_spec.v
theories/HashTable_proofs.v
theories/HashTable_proofs2.v
theories/HashTable_props.v
theories/CountMin_model.v
theories/CountMin_spec.v
theories/CountMin_proofs.v
theories/CountMin_props.v
theories/SplitSet_model.v
theories/SplitSet_spec.v
theories/SplitSet_proofs.v
theories/SplitSet_props.v
theories/Compress_model.v
theories/Compress_spec.v
theories/Compress_proofs.v
theories/Compress_props.v
theories/AllocClass_model.v
theories/AllocClass_spec.v
theories/AllocClass_proofs.v
theories/AllocClass_proofs2.v
theories/AllocClass_proofs3.v
theories/AllocClass_proofs4.v
theories/AllocClass_proofs5.v
theories/AllocClass_props.v
theories/Pool_model.v
theories/Pool_spec.v
theories/Pool_proofs.v
theories/Pool_proofs2.v
theories/Pool_proofs3.v
theories/Pool_proofs4.v
theories/Pool_proofs5.v
theories/Pool_proofs6.v
theories/Pool_props.v
theories/FurcHash_model.v
theories/FurcHash_spec.v
theories/FurcHash_proofs.v
theories/FurcHash_props.v
theories/Pieces_model.v
theories/Pieces_spec.v
theories/Pieces_proofs.v
theories/Pieces_proofs2.v
theories/Pieces_props.v
theories/RegionPolicy_model.v
theories/RegionPolicy_spec.v
theories/RegionPolicy_proofs.v
theories/RegionPolicy_proofs2.v
theories/RegionPolicy_props.v
theories/EnginePair_model.v
theories/EnginePair_spec.v
theories/EnginePair_proofs.v
theories/EnginePair_props.v
theories/Driver_model.v
theories/Driver_spec.v
theories/Driver_proofs.v
theories/Driver_props.v
theories/AddrCode_model.v
theories/AddrCode_spec.v
theories/AddrCode_proofs.v
theories/AddrCode_props.v
theories/Device_model.v
theories/Device_spec.v
theories/Device_proofs.v
theories/Device_proofs2.v
theories/Device_props.v
theories/Item_model.v
theories/Item_spec.v
theories/Item_proofs.v
theories/Item_props.v
theories/Expiry_model.v
theories/Expiry_spec.v
theories/Expiry_proofs.v
theories/Expiry_props.v
theories/NvmItem_model.v
theories/NvmItem_spec.v
theories/NvmItem_proofs.v
theories/NvmItem_proofs2.v
theories/NvmItem_props.v
theories/Scheduler_model.v
theories/Scheduler_spec.v
theories/Scheduler_proofs.v
theories/Scheduler_proofs2.v
theories/Scheduler_proofs3.v
theories/Scheduler_props.v
theories/CCache_model.v
theories/CCache_spec.v
theories/CCacheF_proofs.v
theories/CCacheV_proofs.v
theories/CCacheV2_proofs.v
theories/CCacheV3_proofs.v
theories/CCacheV4_proofs.v
theories/CCacheV5_proofs.v
theories/CCacheK_proofs.v
theories/CCache_props.v
theories/Rebalance_model.v
theories/Rebalance_spec.v
theories/Rebalance_proofs.v
theories/Rebalance_proofs2.v
theories/Rebalance_props.v
theories/NvmRace_model.v
theories/NvmRace_spec.v
theories/NvmRace_proofs.v
theories/NvmRace_proofs2.v
theories/NvmRace_proofs3.v
theories/NvmRace_proofs4.v
theories/NvmRace_proofs5.v
theories/NvmRace_props.v
theories/RegMgr_model.v
theories/RegMgr_spec.v
theories/RegMgr_proofs.v
theories/RegMgr_proofs2.v
theories/RegMgr_proofs3.v
theories/RegMgr_proofs4.v
theories/RegMgr_proofs5.v
theories/RegMgr_props.v
theories/BlockCache_model.v
theories/BlockCache_spec.v
theories/BlockCache_proofs.v
theories/BlockCache_proofs2.v
theories/BlockCache_proofs3.v
theories/BlockCache_proofs4.v
theories/BlockCache_proofs5.v
theories/BlockCache_proofs6.v
theories/BlockCache_props.v
theories/SparseIndex_model.v
theories/SparseIndex_spec.v
theories/SparseIndex_proofs.v
theories/SparseIndex_props.v
theories/FixedIndex_model.v
theories/FixedIndex_spec.v
theories/FixedIndex_proofs.v
theories/FixedIndex_proofs2.v
theories/FixedIndex_proofs3.v
theories/FixedIndex_proofs4.v
theories/FixedIndex_props.v
theories/Lifetime_model.v
theories/Lifetime_spec.v
theories/Lifetime_proofs.v
theories/Lifetime_proofs2.v
theories/Lifetime_proofs3.v
theories/Lifetime_proofs3b.v
theories/Lifetime_proofs3c.v
theories/Lifetime_proofs3d.v
theories/Lifetime_proofs4.v
theories/Lifetime_proofs5.v
theories/Lifetime_proofs6.v
theories/Lifetime_proofs7.v
theories/Lifetime_proofs8.v
theories/Lifetime_props.v
theories/MM2Q_model.v
theories/MM2Q_spec.v
theories/MM2Q_proofs.v
theories/MM2Q_proofs2.v
theories/MM2Q_proofs3.v
theories/MM2Q_proofs4.v
theories/MM2Q_proofs5.v
theories/MM2Q_props.v
theories/MMTinyLFU_model.v
theories/MMTinyLFU_spec.v
theories/MMTinyLFU_proofs.v
theories/MMTinyLFU_proofs2.v
theories/MMTinyLFU_proofs3.v
theories/MMTinyLFU_proofs4.v
theories/MMTinyLFU_props.v
theories/Chain_model.v
theories/Chain_spec.v
theories/Chain_proofs.v
theories/Chain_proofs2.v
theories/Chain_proofs3.v
theories/Chain_proofs4.v
theories/Chain_proofs5.v
theories/Chain_proofs6.v
theories/Chain_proofs7.v
theories/Chain_proofs8.v
theories/Chain_proofs9.v
theories/Chain_props.v
theories/DtBuffer_model.v
theories/DtMap_model.v
theories/DtRange_model.v
theories/DtMap_spec.v
theories/DtRange_spec.v
theories/DtTable_proofs.v
theories/DtBuffer_proofs.v
theories/DtMap_proofs.v
theories/DtRange_proofs.v
theories/Dt_props.v
theories/Destr_model.v
theories/Destr_spec.v
theories/Destr_proofs.v
theories/Destr_proofs2.v
theories/Destr_proofs3.v
theories/Destr_proofs4.v
theories/Destr_proofs5.v
theories/Destr_proofs6.v
theories/Destr_proofs7.v
theories/Destr_proofs8.v
theories/Destr_proofs9.v
theories/Destr_props.v
theories/ShmMgr_model.v
theories/ShmMgr_spec.v
theories/ShmMgr_proofs.v
theories/ShmMgr_proofs2.v
theories/ShmMgr_proofs3.v
theories/ShmMgr_proofs4.v
theories/ShmMgr_proofs5.v
theories/ShmMgr_proofs6.v
theories/ShmMgr_proofs7.v
theories/ShmMgr_props.v
theories/NvmState_model.v
theories/NvmState_spec.v
theories/NvmState_proofs.v
theories/NvmState_proofs2.v
theories/NvmState_props.v
theories/MetaRec_model.v
theories/MetaRec_spec.v
theories/MetaRec_proofs.v
theories/MetaRec_proofs2.v
theories/MetaRec_proofs3.v
theories/MetaRec_proofs4.v
theories/MetaRec_props.v
theories/AsyncHdl_model.v
theories/AsyncHdl_spec.v
theories/AsyncHdl_proofs1.v
theories/AsyncHdl_proofs2.v
theories/AsyncHdl_proofs3.v
theories/AsyncHdl_proofs4.v
theories/AsyncHdl_proofs5.v
theories/AsyncHdl_proofs6.v
theories/AsyncHdl_proofs7.v
theories/AsyncHdl_proofs8.v
theories/AsyncHdl_props.v
theories/MoveWait_model.v
theories/MoveWait_spec.v
theories/MoveWait_proofs1.v
theories/MoveWait_proofs2.v
theories/MoveWait_proofs3.v
theories/MoveWait_proofs4.v
theories/MoveWait_proofs5.v
theories/MoveWait_proofs6.v
theories/MoveWait_proofs7.v
theories/MoveWait_proofs8.v
theories/MoveWait_proofs9.v
theories/MoveWait_props.v
theories/SizeCtl_model.v
theories/SizeCtl_spec.v
theories/SizeCtl_proofs1.v
theories/SizeCtl_proofs2.v
theories/SizeCtl_proofs3.v
theories/SizeCtl_props.v
theories/ObjCache_model.v
theories/ObjCache_spec.v
theories/ObjCache_proofs1.v
theories/ObjCache_proofs2.v
theories/ObjCache_proofs3.v
theories/ObjCache_proofs4.v
theories/ObjCache_props.v
theories/PersistMgr_model.v
theories/PersistMgr_spec.v
theories/PersistMgr_proofs1.v
theories/PersistMgr_proofs2.v
theories/PersistMgr_proofs3.v
theories/PersistMgr_proofs4.v
theories/PersistMgr_props.v
theories/CCResize_model.v
theories/CCResize_spec.v
theories/CCResize_proofs1.v
theories/CCResize_proofs2.v
theories/CCResize_proofs3.v
theories/CCResize_proofs4.v
theories/CCResize_proofs5.v
theories/CCResize_proofs6.v
theories/CCResize_props.v
theories/PeriodicW_model.v
theories/PeriodicW_spec.v
theories/PeriodicW_proofs1.v
theories/PeriodicW_proofs2.v
theories/PeriodicW_proofs3.v
theories/PeriodicW_proofs4.v
theories/PeriodicW_props.v
theories/ObjPersist_model.v
theories/ObjPersist_spec.v
theories/ObjPersist_proofs1.v
theories/ObjPersist_proofs2.v
theories/ObjPersist_proofs3.v
theories/ObjPersist_proofs4.v
theories/ObjPersist_proofs5.v
theories/ObjPersist_props.v
theories/Tracker_model.v
theories/Tracker_spec.v
theories/Tracker_proofs1.v
theories/Tracker_proofs2.v
theories/Tracker_props.v
theories/SList_model.v
theories/SList_spec.v
theories/SList_proofs.v
theories/SList_props.v
theories/Cohort_model.v
theories/Cohort_spec.v
theories/Cohort_proofs.v
theories/Cohort_props.v
theories/CombBlk_model.v
theories/CombBlk_spec.v
theories/CombBlk_proofs1.v
theories/CombBlk_proofs2.v
theories/CombBlk_props.v
